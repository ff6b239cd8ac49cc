(** Properties C16, C17, C18: reading back what was written, termination of
    reading, and the style defaults. *)
From Coq Require Import ZArith List Bool Ascii String Lia.
From Verif Require Import IO IOProofs IOVec.
Import ListNotations.

(** The stream is good and only white space is left before [rest]. *)
Definition left_at (st : stream) (rest : text) : Prop :=
  okst st = true /\ exists w, blank w = true /\ txt st = w ++ rest.
Lemma at_left fuel st k : at_text fuel st k -> left_at st k.
Proof. intros (H1 & _ & H2). split; auto. Qed.

(** C16.  For every element type C, style, vector v, following text and target
    vector t0 (of any size when the style writes sizes): writing v and reading it
    back gives v, thresholded as the style says, and leaves the stream at [rest].
    The style must put a character that cannot continue a number after every
    number, and the values must survive print and parse ([readable_value]). *)
Theorem C16_round_trip : forall C s (v t0 : vec C) junk rest fuel,
  starts_stop C (s_space s) -> stops C (s_rparen s ++ rest) ->
  (forall i, (i < vlen C v)%nat -> readable_value s C (velt C v i)) ->
  (writesize s = true \/ vlen C t0 = vlen C v) ->
  (List.length (write_vec s C v ++ rest) < fuel)%nat ->
  exists v' st', read_vec fuel s C junk t0 (mkStream (write_vec s C v ++ rest) true) = Val tt v' st' /\
    vlen C v' = vlen C v /\
    (forall i, (i < vlen C v)%nat -> velt C v' i = cout C (s_thresh s) (velt C v i)) /\
    left_at st' rest.
Proof.
  intros C s v t0 junk rest fuel H1 H2 H3 H4 H5.
  destruct (read_vec_ok fuel s C junk v t0 rest H1 H3 H2 H4 H5) as (v' & st' & E & L & V & A).
  exists v', st'. split; [exact E|]. split; [exact L|]. split; [exact V|]. eapply at_left; eauto.
Qed.
Print Assumptions C16_round_trip.

(** For integer vectors and the delimiters of any style that starts its separators
    with a non-digit no further premise is needed. *)
Theorem C16_round_trip_int : forall s (v t0 : vec int_codec) junk rest fuel,
  (exists c r, s_space s = c :: r /\ is_digit c = false) ->
  match s_rparen s ++ rest with [] => True | c :: _ => is_digit c = false end ->
  s_thresh s = 0%Z -> (writesize s = true \/ vlen _ t0 = vlen _ v) ->
  (List.length (write_vec s int_codec v ++ rest) < fuel)%nat ->
  exists v' st', read_vec fuel s int_codec junk t0 (mkStream (write_vec s int_codec v ++ rest) true) = Val tt v' st' /\
    vlen _ v' = vlen _ v /\ (forall i, (i < vlen _ v)%nat -> velt _ v' i = velt _ v i) /\
    left_at st' rest.
Proof.
  intros s v t0 junk rest fuel (c & r & Hs & Hc) Hr Ht Hw Hf.
  destruct (C16_round_trip int_codec s v t0 junk rest fuel) as (v' & st' & E & L & V & A); auto.
  - rewrite Hs. simpl. auto.
  - destruct (s_rparen s ++ rest); simpl; auto.
  - intros. apply int_readable.
  - exists v', st'. split; [exact E|]. split; [exact L|]. split; [|exact A].
    intros i Hi. rewrite V by auto. rewrite Ht. reflexivity.
Qed.
Print Assumptions C16_round_trip_int.

Theorem C16_view_round_trip : forall C s (v t0 : vec C) rest fuel,
  starts_stop C (s_space s) -> stops C (s_rparen s ++ rest) ->
  (forall i, (i < vlen C v)%nat -> readable_value s C (velt C v i)) ->
  vlen C t0 = vlen C v ->
  (List.length (write_vec s C v ++ rest) < fuel)%nat ->
  exists v' st', read_vec_view fuel s C t0 (mkStream (write_vec s C v ++ rest) true) = Val tt v' st' /\
    vlen C v' = vlen C v /\
    (forall i, (i < vlen C v)%nat -> velt C v' i = cout C (s_thresh s) (velt C v i)) /\
    left_at st' rest.
Proof.
  intros C s v t0 rest fuel H1 H2 H3 H4 H5.
  destruct (read_view_ok fuel s C v t0 rest H1 H3 H2 H4 H5) as (v' & st' & E & L & V & A).
  exists v', st'. split; [exact E|]. split; [exact L|]. split; [exact V|]. eapply at_left; eauto.
Qed.
Print Assumptions C16_view_round_trip.

(** A view of another size throws ReadError and keeps all its elements. *)
Theorem C16_view_wrong_size : forall C s (v t0 : vec C) rest fuel,
  starts_stop C (s_space s) -> writesize s = true -> vlen C t0 <> vlen C v ->
  (List.length (write_vec s C v ++ rest) < fuel)%nat ->
  exists st', read_vec_view fuel s C t0 (mkStream (write_vec s C v ++ rest) true) = Err t0 st'.
Proof. intros. apply read_view_size; auto. Qed.
Print Assumptions C16_view_wrong_size.

Definition v3 : vec int_codec := mkVec int_codec 3 (fun i => (Z.of_nat i * 7 - 5)%Z).
Definition v1 : vec int_codec := mkVec int_codec 1 (fun i => 99%Z).
Definition comma_style : style :=
  st_useCode (st_markup [] (T_ "[") (T_ " , ") (T_ "] ") [] [] original_style).
Example C16_hyp :
  starts_stop int_codec (s_space comma_style) /\ starts_stop int_codec (s_space original_style) /\
  starts_stop int_codec (s_space (CompactIO original_style)) /\
  stops int_codec (s_rparen comma_style ++ T_ "tail") /\
  stops int_codec (s_rparen (CompactIO original_style) ++ []) /\
  write_vec comma_style int_codec v3 = T_ "V , 3 , [-5 , 2 , 9] " /\
  write_vec original_style int_codec v3 = T_ "3  ( -5  2  9 )" /\
  write_vec (CompactIO original_style) int_codec v3 = T_ "V 3 -5 2 9" /\
  match read_vec 99 comma_style int_codec (fun _ => 0%Z) v1
          (mkStream (write_vec comma_style int_codec v3 ++ T_ "tail") true) with
  | Val _ v st => List.map (velt _ v) [0; 1; 2]%nat = [-5; 2; 9]%Z /\ vlen _ v = 3%nat /\ txt st = T_ " tail"
  | _ => False
  end.
Proof. vm_compute. repeat split. Qed.

(** C17 is false: skipWhiteSpace never stops when only white space is left.
    Reading a Vector from any blank non-empty input, in any style that writes a
    code or a size, runs forever: no amount of fuel is enough. *)
Theorem C17_blank_input_refuted : forall C s junk (t0 : vec C) w fuel,
  usecode s = true \/ writesize s = true -> blank w = true -> w <> [] ->
  read_vec fuel s C junk t0 (mkStream w true) = Spin.
Proof.
  intros C s junk t0 w fuel Hs Hw Hne.
  assert (X : forall f, skip_loop f None (mkStream w true) = None).
  { intros [|f]; [reflexivity|]. destruct w as [|a w]; [contradiction|].
    simpl in Hw. apply andb_prop in Hw as [H1 H2]. cbn [skip_loop get_char okst txt]. rewrite H1.
    apply skip_blank; auto. }
  assert (Y : forall t : vec C, skip_ws fuel t (mkStream w true) = Spin) by (intro; unfold skip_ws; rewrite X; reflexivity).
  unfold read_vec, rseq, rbind, must, must_size, read_code, read_size. destruct (usecode s).
  - change (trim (T_ "V")) with (T_ "V"). unfold T_. cbn [list_ascii_of_string read_str]. unfold rbind. rewrite Y. reflexivity.
  - destruct Hs as [Hs|Hs]; [discriminate|]. rewrite Hs. cbn. unfold rbind, rret. rewrite Y. reflexivity.
Qed.
Print Assumptions C17_blank_input_refuted.

Lemma rbind_val {T A B} (p : rd T A) (q : A -> rd T B) t st a t' st' :
  p t st = Val a t' st' -> rbind p q t st = q a t' st'.
Proof. intro H. unfold rbind. rewrite H. reflexivity. Qed.
Lemma rbind_spin {T A B} (p : rd T A) (q : A -> rd T B) t st :
  p t st = Spin -> rbind p q t st = Spin.
Proof. intro H. unfold rbind. rewrite H. reflexivity. Qed.

(** So does input cut short after a separator; with no input at all the first
    test uses an uninitialised character; a negative size is not reported. *)
Theorem C17_truncated_refuted : forall fuel junk,
  read_vec fuel original_style int_codec junk v1 (mkStream (T_ "3  ( -5  2  ") true) = Spin /\
  ((fuel > 0)%nat ->
   read_vec fuel original_style int_codec junk v1 (mkStream [] true) = Undef) /\
  ((fuel > 10)%nat ->
   read_vec fuel original_style int_codec junk v1 (mkStream (T_ "-2  ( )") true) = Undef).
Proof.
  intros fuel junk. split; [|split].
  - do 3 (destruct fuel as [|fuel]; [reflexivity|]).
    set (f := S (S (S fuel))).
    assert (Hsp : forall t : vec int_codec, skip_ws f t (mkStream (T_ "  ") true) = Spin).
    { intro t. unfold skip_ws, T_, f. cbn [list_ascii_of_string skip_loop get_char okst txt is_ws].
      change (is_ws " "%char) with true. cbn iota. rewrite skip_fail by reflexivity. reflexivity. }
    unfold read_vec, rseq. cbv beta.
    rewrite (rbind_val _ _ v1 _ tt v1 (mkStream (T_ "3  ( -5  2  ") true)) by reflexivity.
    rewrite (rbind_val _ _ v1 _ 3%Z v1 (mkStream (T_ "  ( -5  2  ") true)) by reflexivity.
    rewrite (rbind_val _ _ v1 _ tt (mkVec int_codec 3 junk) (mkStream (T_ "  ( -5  2  ") true)) by reflexivity.
    change (Z.to_nat 3) with 3%nat. unfold finish_read_vec, rseq.
    rewrite (rbind_val _ _ _ _ tt (mkVec int_codec 3 junk) (mkStream (T_ " -5  2  ") true)) by reflexivity.
    apply rbind_spin. cbn [rloop]. unfold rseq.
    rewrite (rbind_val _ _ _ _ tt (vset int_codec 0 (-5)%Z (mkVec int_codec 3 junk)) (mkStream (T_ "  2  ") true)) by reflexivity.
    rewrite (rbind_val _ _ _ _ tt (vset int_codec 1 2%Z (vset int_codec 0 (-5)%Z (mkVec int_codec 3 junk))) (mkStream (T_ "  ") true)) by reflexivity.
    apply rbind_spin.
    rewrite (rbind_val _ _ _ _ tt (vset int_codec 1 2%Z (vset int_codec 0 (-5)%Z (mkVec int_codec 3 junk))) (mkStream (T_ "  ") true)) by reflexivity.
    apply rbind_spin. unfold must_value. apply rbind_spin. unfold read_value, rseq. apply rbind_spin. apply Hsp.
  - intro H. destruct fuel; [lia|reflexivity].
  - intro H. do 11 (destruct fuel as [|fuel]; [lia|]). reflexivity.
Qed.
Print Assumptions C17_truncated_refuted.

(** What holds: on a good stream with some non-blank character left, skipping
    white space ends, tests only characters read, and stops at that character;
    conversely it never ends properly otherwise. *)
Theorem C17_skip_partial : forall t st',
  (exists fuel, skip_loop fuel None (mkStream t true) = Some (Some st')) <->
  (exists w c r, t = w ++ c :: r /\ blank w = true /\ is_ws c = false /\ st' = mkStream (c :: r) true).
Proof.
  intros t st'. split.
  - intros [fuel E]. destruct (ltrim_split t) as [w [Hw Et]]. destruct (ltrim t) as [|c r] eqn:El.
    + rewrite app_nil_r in Et. subst w. destruct fuel as [|f]; [discriminate|].
      destruct t as [|a t]; [discriminate|]. simpl in Hw. apply andb_prop in Hw as [H1 H2].
      cbn [skip_loop get_char okst txt] in E. rewrite H1 in E. rewrite skip_blank in E by auto. discriminate.
    + pose proof (ltrim_ends_nonws _ _ _ El) as Hc. exists w, c, r.
      split; [exact Et|]. split; [exact Hw|]. split; [exact Hc|].
      assert (D : forall f c0, skip_loop f c0 (mkStream (w ++ c :: r) true) = None \/
         skip_loop f c0 (mkStream (w ++ c :: r) true) = Some (Some (mkStream (c :: r) true))).
      { clear - Hw Hc. induction w as [|a w IH]; intros f c0; destruct f as [|f]; auto.
        - right. simpl. rewrite Hc. reflexivity.
        - simpl in Hw. apply andb_prop in Hw as [H1 H2]. cbn [skip_loop get_char okst txt app]. rewrite H1. apply IH; auto. }
      rewrite Et in E. destruct (D fuel None) as [D1|D1]; rewrite D1 in E; [discriminate|]. congruence.
  - intros (w & c & r & -> & Hw & Hc & ->). exists (S (List.length w)).
    apply skip_loop_ok; auto.
Qed.
Print Assumptions C17_skip_partial.

(** And then readStr, readSize and readValue end as well. *)
Theorem C17_primitives_partial : forall C s t fuel (v : vec C) str n,
  blank t = false -> (List.length t < fuel)%nat ->
  (exists b st', read_str fuel str v (mkStream t true) = Val b v st') /\
  (exists x st', read_value fuel C v (mkStream t true) = Val x v st') /\
  (trim (s_space s) = [] -> exists o st', read_size fuel s n v (mkStream t true) = Val o v st').
Proof.
  intros C s t fuel v str n Ht Hf.
  destruct (ltrim_split t) as [w [Hw Et]]. destruct (ltrim t) as [|c r] eqn:El.
  { rewrite app_nil_r in Et. subst. congruence. }
  pose proof (ltrim_ends_nonws _ _ _ El) as Hc.
  assert (S1 : skip_ws fuel v (mkStream t true) = Val tt v (mkStream (c :: r) true)).
  { unfold skip_ws. rewrite Et. rewrite skip_loop_ok; auto. rewrite Et, app_length in Hf. lia. }
  split; [|split].
  - unfold read_str. destruct str as [|a q]; [do 2 eexists; reflexivity|]. unfold rbind. rewrite S1.
    destruct (get_n _ _) as [g st'']. destruct (text_eqb g (a :: q)); do 2 eexists; reflexivity.
  - unfold read_value, rseq, rbind. rewrite S1. unfold extract. cbn [okst txt].
    destruct (cparse C (c :: r)) as [[x q]|]; do 2 eexists; reflexivity.
  - intro Hsp. unfold read_size. destruct (writesize s); [|do 2 eexists; reflexivity].
    unfold rbind. rewrite S1. unfold extract. cbn [okst txt].
    destruct (zparse (c :: r)) as [[x q]|]; [|do 2 eexists; reflexivity].
    unfold read_space. rewrite Hsp. do 2 eexists; reflexivity.
Qed.
Print Assumptions C17_primitives_partial.

(** C18.  A history of style operations acts on the default. *)
Inductive style_op := MakeDefault (s : style) | RevertDefault | NewStyle (s : style).
(** makeDefault, revertDefault, TMV_IOStyle.h:85-91; creating and changing a style
    object does not touch the default. *)
Definition style_step (d : style) (o : style_op) : style :=
  match o with MakeDefault s => s | RevertDefault => original_style | NewStyle _ => d end.
(** The last default set in a history. *)
Fixpoint last_default (h : list style_op) : option style :=
  match h with
  | [] => None
  | o :: r => match last_default r with
              | Some d => Some d
              | None => match o with MakeDefault s => Some s | RevertDefault => Some original_style | NewStyle _ => None end
              end
  end.
Theorem C18_default_is_last_set : forall h d0,
  fold_left style_step h d0 = match last_default h with Some d => d | None => d0 end.
Proof.
  induction h as [|o h IH]; intro d0; [reflexivity|]. cbn [fold_left last_default]. rewrite IH.
  destruct (last_default h); [reflexivity|]. destruct o; reflexivity.
Qed.
Print Assumptions C18_default_is_last_set.

(** The named styles after any history. *)
Theorem C18_named_styles : forall h,
  let d := fold_left style_step h original_style in
  (let s := NormalIO d in usecode s = false /\ writesize s = true /\ simplesize s = true /\ usecompact s = false /\
     s_start s = [nl] /\ s_lparen s = T_ "( " /\ s_space s = T_ "  " /\ s_rparen s = T_ " )" /\
     s_rowend s = [nl] /\ s_final s = [nl]) /\
  (let s := CompactIO d in usecode s = true /\ writesize s = true /\ simplesize s = false /\ usecompact s = true /\
     s_start s = [] /\ s_lparen s = [] /\ s_space s = T_ " " /\ s_rparen s = [] /\
     s_rowend s = T_ " " /\ s_final s = []) /\
  (let s := EigenIO d in usecode s = false /\ writesize s = false /\ usecompact s = false /\
     s_start s = [] /\ s_lparen s = [] /\ s_space s = T_ " " /\ s_rparen s = [] /\
     s_rowend s = [nl] /\ s_final s = []).
Proof. intro h. cbv zeta. repeat split. Qed.
Print Assumptions C18_named_styles.

(** NormalIO in a program that never changes the default, or has reverted it, is
    the original default style. *)
Theorem C18_normal_is_original : NormalIO original_style = original_style /\
  forall h, fold_left style_step (h ++ [RevertDefault]) original_style = original_style.
Proof. split; [reflexivity|]. intro h. rewrite fold_left_app. reflexivity. Qed.
Print Assumptions C18_normal_is_original.

(** But a threshold or precision made default leaks into the named styles: a
    vector written with NormalIO() or CompactIO() then loses its small values. *)
Theorem C18_threshold_leaks_refuted :
  exists h (v : vec int_codec), let d := fold_left style_step h original_style in
    write_vec (CompactIO d) int_codec v <> write_vec (CompactIO original_style) int_codec v.
Proof.
  exists [MakeDefault (ThreshIO 5 original_style)], v3. vm_compute. discriminate.
Qed.
Print Assumptions C18_threshold_leaks_refuted.
Example C18_hyp :
  let h := [MakeDefault (CompactIO original_style); NewStyle comma_style; MakeDefault comma_style; NewStyle original_style] in
  fold_left style_step h original_style = comma_style /\ comma_style <> original_style.
Proof. split; [reflexivity|]. discriminate. Qed.
