(** Text input and output of the special matrices.  The element type has a zero
    and a one that the writer prints for the elements outside the shape. *)
From Coq Require Import ZArith List Bool Ascii String Lia.
From Verif Require Import IO IOProofs IOMat.
Import ListNotations.

Section Tri.
Variable fuel : nat.
Variable s : style.
Variable C : codec.
Notation V := (cval C).
Notation mat := (mat C).
Variables (v0 v1 : V) (veqb : V -> V -> bool).

(** [for(j=0;j<n;++j) { writeValue(T(0)); writeSpace(); }] and its reader *)
Definition w_pre (n : nat) : text := wloop n 0 (fun _ => write_value s C v0 ++ s_space s).
Definition check (x y : V) : rd mat unit := if veqb x y then rret tt else rthrow.
Definition r_pre (n : nat) : rd mat unit :=
  rloop n 0 (fun _ => rbind (must_value fuel C) (fun x => rseq (check x v0) (must (read_space fuel s)))).
(** [for(j=lo;j<lo+n;++j) { if (j > lo) writeSpace(); writeValue(f(j)); }] *)
Definition w_sep (n lo : nat) (f : nat -> V) : text :=
  wloop n lo (fun j => (if Nat.ltb lo j then s_space s else []) ++ write_value s C (f j)).
Definition r_sep (n lo : nat) (act : nat -> V -> rd mat unit) : rd mat unit :=
  rloop n lo (fun j => rseq (if Nat.ltb lo j then must (read_space fuel s) else rret tt)
                            (rbind (must_value fuel C) (act j))).
(** [for(j=lo;j<lo+n;++j) { writeSpace(); writeValue(f(j)); }] *)
Definition w_post (n lo : nat) (f : nat -> V) : text :=
  wloop n lo (fun j => s_space s ++ write_value s C (f j)).
Definition r_post (n lo : nat) (act : nat -> V -> rd mat unit) : rd mat unit :=
  rloop n lo (fun j => rseq (must (read_space fuel s)) (rbind (must_value fuel C) (act j))).

(** ** Writers: the rows *)
(** GenUpperTriMatrix::write, TMV_TriMatrix.cpp:938-965 *)
Definition upper_row (N : nat) (e : nat -> nat -> V) (i : nat) : text :=
  (if usecompact s then [] else w_pre i) ++ w_sep (N - i) i (e i).
(** GenLowerTriMatrix::write, TMV_TriMatrix.cpp:1263-1290 *)
Definition lower_row (N : nat) (e : nat -> nat -> V) (i : nat) : text :=
  w_sep (i + 1) 0 (e i) ++ (if usecompact s then [] else w_post (N - (i + 1)) (i + 1) (fun _ => v0)).
(** GenDiagMatrix::write, TMV_DiagMatrix.cpp:590-620 *)
Definition diag_row (N : nat) (e : nat -> nat -> V) (i : nat) : text :=
  (if usecompact s then [] else w_sep i 0 (fun _ => v0) ++ (if Nat.ltb 0 i then s_space s else [])) ++
  write_value s C (e i i) ++
  (if usecompact s then [] else w_post (N - (i + 1)) (i + 1) (fun _ => v0)).
(** GenSymMatrix::write, TMV_SymMatrix.cpp:882-908; [e] is cref *)
Definition sym_row (N : nat) (e : nat -> nat -> V) (i : nat) : text :=
  w_sep (i + 1) 0 (e i) ++ (if usecompact s then [] else w_post (N - (i + 1)) (i + 1) (e i)).
(** GenBandMatrix::write, TMV_BandMatrix.cpp:1530-1573; row i has columns
    [j1,j2); [j < N-1] guards the space after a leading zero *)
Definition band_row (N : nat) (e : nat -> nat -> V) (j1 j2 i : nat) : text :=
  (if usecompact s then [] else
     wloop j1 0 (fun j => write_value s C v0 ++ (if Nat.ltb j (N - 1) then s_space s else []))) ++
  w_sep (j2 - j1) j1 (e i) ++
  (if usecompact s then [] else w_post (N - j2) j2 (fun _ => v0)).

(** ** Readers: the rows of FinishRead *)
Definition put_at (i j : nat) (x : V) : rd mat unit := rput (mset C i j x).
(** unit-diagonal targets check the diagonal instead of storing it *)
Definition tri_act (ud : bool) (i j : nat) (x : V) : rd mat unit :=
  if Nat.eqb j i && ud then check x v1 else put_at i j x.
(** TMV_TriMatrix.cpp:1062-1165, 1380-1490 *)
Definition read_upper_row (ud : bool) (N i : nat) : rd mat unit :=
  rseq (if usecompact s then rret tt else r_pre i) (r_sep (N - i) i (tri_act ud i)).
Definition read_lower_row (ud : bool) (N i : nat) : rd mat unit :=
  rseq (r_sep (i + 1) 0 (tri_act ud i))
       (if usecompact s then rret tt else r_post (N - (i + 1)) (i + 1) (fun _ x => check x v0)).
(** TMV_DiagMatrix.cpp:707-828 *)
Definition read_diag_row (N i : nat) : rd mat unit :=
  rseq (if usecompact s then rret tt
        else rseq (r_sep i 0 (fun _ x => check x v0))
                  (if Nat.ltb 0 i then must (read_space fuel s) else rret tt))
  (rseq (rbind (must_value fuel C) (put_at i i))
        (if usecompact s then rret tt else r_post (N - (i + 1)) (i + 1) (fun _ x => check x v0))).
(** TMV_BandMatrix.cpp:1675-1803: here every leading zero is followed by
    readSpace *)
Definition read_band_row (N j1 j2 i : nat) : rd mat unit :=
  rseq (if usecompact s then rret tt else r_pre j1)
  (rseq (r_sep (j2 - j1) j1 (put_at i))
        (if usecompact s then rret tt else r_post (N - j2) j2 (fun _ x => check x v0))).

(** ** Loop lemmas *)
Hypothesis Hs : style_ok s C.
Hypothesis Hz : readable_value s C v0.
Hypothesis Hz0 : veqb (cout C (s_thresh s) v0) v0 = true.

Lemma check_ok P (x y : V) t : veqb x y = true -> consumes fuel P [] (check x y) t tt t.
Proof. intro H. unfold check. rewrite H. apply consumes_ret. Qed.

Lemma pre_ok n t : consumes fuel always (w_pre n) (r_pre n) t tt t.
Proof.
  apply (rloop_ok fuel always (fun _ => always) _ _ (fun _ => t) n 0%nat); [|intros; exact I|intros; exact I].
  intros i _. eapply consumes_bind with (P' := stops C).
  - apply must_value_ok, Hz.
  - change (s_space s) with ([] ++ s_space s).
    eapply consumes_bind with (P' := always); [apply check_ok, Hz0| |intros; exact I].
    apply must_ok, read_str_ok.
  - intros k _. cbn [app]. apply starts_stop_app, Hs.
Qed.

Lemma sep_ok n lo f act (I0 : nat -> mat) :
  (forall j, lo <= j < lo + n -> readable_value s C (f j))%nat ->
  (forall j, lo <= j < lo + n ->
     consumes fuel always [] (act j (cout C (s_thresh s) (f j))) (I0 j) tt (I0 (S j)))%nat ->
  consumes fuel (stops C) (w_sep n lo f) (r_sep n lo act) (I0 lo) tt (I0 (lo + n)%nat).
Proof.
  intros Hv Ha. apply rloop_ok with (Pi := fun _ => stops C).
  - intros i Hi. apply consumes_bind with (P' := always) (a := tt) (t' := I0 i).
    + destruct (Nat.ltb lo i); [|apply consumes_ret]. apply must_ok, read_str_ok.
    + rewrite <- (app_nil_r (write_value s C (f i))).
      eapply consumes_bind with (P' := stops C); [apply must_value_ok, Hv; lia| |intros k Hk; exact Hk].
      apply consumes_weaken with (P' := always); [intros; exact I|]. apply Ha. lia.
    + intros; exact I.
  - intros i k Hi. rewrite (proj2 (Nat.ltb_lt lo (S i))) by lia. rewrite <- app_assoc. apply starts_stop_app, Hs.
  - auto.
Qed.
Lemma post_ok n lo f act (I0 : nat -> mat) :
  (forall j, lo <= j < lo + n -> readable_value s C (f j))%nat ->
  (forall j, lo <= j < lo + n ->
     consumes fuel always [] (act j (cout C (s_thresh s) (f j))) (I0 j) tt (I0 (S j)))%nat ->
  consumes fuel (stops C) (w_post n lo f) (r_post n lo act) (I0 lo) tt (I0 (lo + n)%nat).
Proof.
  intros Hv Ha. apply rloop_ok with (Pi := fun _ => stops C).
  - intros i Hi. apply consumes_bind with (P' := always) (a := tt) (t' := I0 i).
    + apply must_ok, read_str_ok.
    + rewrite <- (app_nil_r (write_value s C (f i))).
      eapply consumes_bind with (P' := stops C); [apply must_value_ok, Hv; lia| |intros k Hk; exact Hk].
      apply consumes_weaken with (P' := always); [intros; exact I|]. apply Ha. lia.
    + intros; exact I.
  - intros i k Hi. rewrite <- app_assoc. apply starts_stop_app, Hs.
  - auto.
Qed.
Lemma zeros_post_ok n lo t :
  consumes fuel (stops C) (w_post n lo (fun _ => v0)) (r_post n lo (fun _ x => check x v0)) t tt t.
Proof.
  apply (post_ok n lo (fun _ => v0) (fun _ x => check x v0) (fun _ => t)); auto.
  intros. apply check_ok, Hz0.
Qed.
Lemma post_stops n lo f k : stops C k -> stops C (w_post n lo f ++ k).
Proof.
  intro H. destruct n as [|n]; [exact H|]. unfold w_post. cbn [wloop]. rewrite <- !app_assoc.
  apply starts_stop_app, Hs.
Qed.

(** ** Which elements a row sets *)
(** Columns [lo,hi) of row i, except the diagonal of a unit triangle. *)
Definition kept (ud : bool) (i j : nat) : bool := negb (Nat.eqb j i && ud).
Fixpoint set_cols (ud : bool) (i lo n : nat) (f : nat -> V) (t : mat) : mat :=
  match n with
  | O => t
  | S k => let t := set_cols ud i lo k f t in
           if kept ud i (lo + k) then mset C i (lo + k) (cout C (s_thresh s) (f (lo + k)%nat)) t else t
  end.
Lemma set_cols_spec ud i lo n f t :
  let t' := set_cols ud i lo n f t in
  mrows C t' = mrows C t /\ mcols C t' = mcols C t /\
  forall a b, melt C t' a b =
    if Nat.eqb a i && (Nat.leb lo b && Nat.ltb b (lo + n)) && kept ud i b
    then cout C (s_thresh s) (f b) else melt C t a b.
Proof.
  cbv zeta. induction n as [|n (H1 & H2 & H3)]; cbn [set_cols].
  - split; [reflexivity|]. split; [reflexivity|]. intros a b. rewrite Nat.add_0_r.
    replace (Nat.leb lo b && Nat.ltb b lo) with false; [rewrite andb_false_r; reflexivity|].
    symmetry. apply andb_false_iff. destruct (Nat.leb_spec lo b); [right; apply Nat.ltb_ge; lia|left; reflexivity].
  - cbv zeta.
    assert (A : mrows C (if kept ud i (lo + n) then mset C i (lo + n) (cout C (s_thresh s) (f (lo + n)%nat)) (set_cols ud i lo n f t) else set_cols ud i lo n f t) = mrows C t)
      by (destruct (kept ud i (lo + n)); exact H1).
    assert (B : mcols C (if kept ud i (lo + n) then mset C i (lo + n) (cout C (s_thresh s) (f (lo + n)%nat)) (set_cols ud i lo n f t) else set_cols ud i lo n f t) = mcols C t)
      by (destruct (kept ud i (lo + n)); exact H2).
    split; [exact A|]. split; [exact B|]. intros a b.
    destruct (Nat.eqb_spec a i) as [->|Ha]; cbn [andb].
    + destruct (Nat.eqb_spec b (lo + n)) as [->|Hb].
      * rewrite (proj2 (Nat.leb_le lo (lo + n))) by lia.
        rewrite (proj2 (Nat.ltb_lt (lo + n) (lo + S n))) by lia. cbn [andb].
        destruct (kept ud i (lo + n)) eqn:K.
        -- unfold mset, upd2. cbn [melt]. rewrite !Nat.eqb_refl. reflexivity.
        -- rewrite H3, K, andb_false_r. reflexivity.
      * transitivity (melt C (set_cols ud i lo n f t) i b).
        { destruct (kept ud i (lo + n)); [|reflexivity]. unfold mset, upd2. cbn [melt].
          rewrite Nat.eqb_refl, (proj2 (Nat.eqb_neq b (lo + n)) Hb). reflexivity. }
        rewrite H3, Nat.eqb_refl. cbn [andb].
        destruct (Nat.leb_spec lo b), (Nat.ltb_spec b (lo + n)), (Nat.ltb_spec b (lo + S n)); cbn [andb]; try reflexivity; lia.
    + transitivity (melt C (set_cols ud i lo n f t) a b).
      { destruct (kept ud i (lo + n)); [|reflexivity]. unfold mset, upd2. cbn [melt].
        rewrite (proj2 (Nat.eqb_neq a i) Ha). reflexivity. }
      rewrite H3, (proj2 (Nat.eqb_neq a i) Ha). reflexivity.
Qed.

Lemma sep_store_ok ud i lo n (e : nat -> V) t :
  (forall j, lo <= j < lo + n -> readable_value s C (e j))%nat ->
  (ud = true -> (lo <= i < lo + n)%nat -> veqb (cout C (s_thresh s) (e i)) v1 = true) ->
  consumes fuel (stops C) (w_sep n lo e) (r_sep n lo (tri_act ud i)) t tt (set_cols ud i lo n e t).
Proof.
  intros Hv Hu.
  assert (X : forall n', (n' <= n)%nat ->
    consumes fuel (stops C) (w_sep n' lo e) (r_sep n' lo (tri_act ud i))
      ((fun j => set_cols ud i lo (j - lo) e t) lo) tt ((fun j => set_cols ud i lo (j - lo) e t) (lo + n')%nat)).
  { intros n' Hn. apply (sep_ok n' lo e (tri_act ud i) (fun j => set_cols ud i lo (j - lo) e t)).
    - intros. apply Hv. lia.
    - intros j Hj. cbv beta. replace (S j - lo)%nat with (S (j - lo)) by lia. cbn [set_cols]. cbv zeta.
      replace (lo + (j - lo))%nat with j by lia. unfold tri_act, kept.
      destruct (Nat.eqb_spec j i) as [->|]; cbn [andb negb]; [destruct ud eqn:U; cbn [negb]|].
      + apply check_ok. apply Hu; auto. lia.
      + apply consumes_put.
      + apply consumes_put. }
  specialize (X n (le_n n)). cbv beta in X. rewrite Nat.sub_diag in X.
  replace (lo + n - lo)%nat with n in X by lia. exact X.
Qed.

Lemma put_sep_ok i lo n (e : nat -> V) t :
  (forall j, lo <= j < lo + n -> readable_value s C (e j))%nat ->
  consumes fuel (stops C) (w_sep n lo e) (r_sep n lo (put_at i)) t tt (set_cols false i lo n e t).
Proof.
  intro Hv.
  assert (X : consumes fuel (stops C) (w_sep n lo e) (r_sep n lo (put_at i))
      ((fun j => set_cols false i lo (j - lo) e t) lo) tt ((fun j => set_cols false i lo (j - lo) e t) (lo + n)%nat)).
  { apply (sep_ok n lo e (put_at i) (fun j => set_cols false i lo (j - lo) e t)); auto.
    intros j Hj. cbv beta. replace (S j - lo)%nat with (S (j - lo)) by lia. cbn [set_cols]. cbv zeta.
    replace (lo + (j - lo))%nat with j by lia. unfold kept. rewrite andb_false_r. apply consumes_put. }
  cbv beta in X. rewrite Nat.sub_diag in X. replace (lo + n - lo)%nat with n in X by lia. exact X.
Qed.

(** ** Rows *)
Section Rows.
Variables (ud : bool) (N : nat) (e : nat -> nat -> V).
Hypothesis He : forall i j, (i < N)%nat -> (j < N)%nat -> readable_value s C (e i j).
Hypothesis Hu : ud = true -> forall i, (i < N)%nat -> veqb (cout C (s_thresh s) (e i i)) v1 = true.

Lemma upper_row_ok i t : (i < N)%nat ->
  consumes fuel (stops C) (upper_row N e i) (read_upper_row ud N i) t tt (set_cols ud i i (N - i) (e i) t).
Proof.
  intro Hi. unfold upper_row, read_upper_row.
  eapply consumes_bind with (P' := always) (a := tt) (t' := t); [| |intros; exact I].
  - destruct (usecompact s); [apply consumes_ret|apply pre_ok].
  - apply sep_store_ok; [intros; apply He; lia|intros; auto].
Qed.
Lemma lower_row_ok i t : (i < N)%nat ->
  consumes fuel (stops C) (lower_row N e i) (read_lower_row ud N i) t tt (set_cols ud i 0 (i + 1) (e i) t).
Proof.
  intro Hi. unfold lower_row, read_lower_row.
  eapply consumes_bind with (P' := stops C) (a := tt) (t' := set_cols ud i 0 (i + 1) (e i) t).
  - apply sep_store_ok; [intros; apply He; lia|intros; auto].
  - destruct (usecompact s); [apply consumes_ret|apply zeros_post_ok].
  - intros k Hk. destruct (usecompact s); [exact Hk|]. apply post_stops, Hk.
Qed.
End Rows.

Lemma diag_row_ok N (e : nat -> nat -> V) i t : (forall i, (i < N)%nat -> readable_value s C (e i i)) -> (i < N)%nat ->
  consumes fuel (stops C) (diag_row N e i) (read_diag_row N i) t tt (set_cols false i i 1 (e i) t).
Proof.
  intros He Hi. unfold diag_row, read_diag_row.
  eapply consumes_bind with (P' := always) (a := tt) (t' := t); [| |intros; exact I].
  - destruct (usecompact s); [apply consumes_ret|].
    destruct i as [|i].
    + cbn [Nat.ltb Nat.leb]. eapply consumes_bind with (P' := always) (a := tt) (t' := t); [apply consumes_ret|apply consumes_ret|intros; exact I].
    + cbn [Nat.ltb Nat.leb].
      eapply consumes_bind with (P' := stops C) (a := tt) (t' := t).
      * apply (sep_ok (S i) 0 (fun _ => v0) (fun _ x => check x v0) (fun _ => t)); auto.
        intros. apply check_ok, Hz0.
      * apply must_ok, read_str_ok.
      * intros k _. apply starts_stop_app, Hs.
  - eapply consumes_bind with (P' := stops C) (a := tt).
    + rewrite <- (app_nil_r (write_value s C (e i i))).
      eapply consumes_bind with (P' := stops C); [apply must_value_ok, He, Hi| |intros k Hk; exact Hk].
      apply consumes_put.
    + cbn [set_cols]. cbv zeta. unfold kept. rewrite andb_false_r. cbn [negb].
      rewrite Nat.add_0_r. destruct (usecompact s); [apply consumes_ret|apply zeros_post_ok].
    + intros k Hk. destruct (usecompact s); [exact Hk|]. apply post_stops, Hk.
Qed.

(** Band rows: correct when no row consists of leading zeros only, or the
    separator is blank, or the style is compact. *)
Lemma band_pre_ok N j1 t : (usecompact s = true \/ (j1 < N)%nat \/ trim (s_space s) = []) -> (j1 <= N)%nat ->
  consumes fuel (fun k => stops C k) (if usecompact s then [] else
     wloop j1 0 (fun j => write_value s C v0 ++ (if Nat.ltb j (N - 1) then s_space s else [])))
   (if usecompact s then rret tt else r_pre j1) t tt t.
Proof.
  intros Hc Hj. destruct (usecompact s) eqn:U; [apply consumes_ret|].
  apply (rloop_ok fuel _ (fun i k => stops C ((if Nat.ltb i (N - 1) then s_space s else []) ++ k)) _ _ (fun _ => t) j1 0%nat).
  - intros i Hi. eapply consumes_bind with (P' := stops C).
    + apply must_value_ok, Hz.
    + apply consumes_eq with (u' := [] ++ (if Nat.ltb i (N - 1) then s_space s else [])); [reflexivity|].
      eapply consumes_bind with (P' := always); [apply check_ok, Hz0| |intros; exact I].
      apply consumes_weaken with (P' := always); [intros; exact I|]. apply must_ok.
      destruct (Nat.ltb_spec i (N - 1)); [apply read_str_ok|].
      destruct Hc as [Hc|[Hc|Hc]]; [discriminate|lia|].
      unfold read_space. rewrite Hc. apply consumes_ret.
    + intros k Hk. exact Hk.
  - intros i k Hi. rewrite (proj2 (Nat.ltb_lt i (N - 1))) by lia. apply starts_stop_app, Hs.
  - intros i k Hi Hk. destruct (Nat.ltb i (N - 1)); [apply starts_stop_app, Hs|exact Hk].
Qed.

(** Band rows: the element part of row i sets columns [j1,j2). *)
Lemma band_row_ok N (e : nat -> nat -> V) j1 j2 i t :
  (forall j, j1 <= j < j2 -> readable_value s C (e i j))%nat ->
  (j1 <= j2 <= N)%nat -> (usecompact s = true \/ (j1 < N)%nat \/ trim (s_space s) = []) ->
  consumes fuel (stops C) (band_row N e j1 j2 i) (read_band_row N j1 j2 i) t tt
    (set_cols false i j1 (j2 - j1) (e i) t).
Proof.
  intros He Hj Hc. unfold band_row, read_band_row.
  destruct (Nat.eq_dec j1 N) as [->|Hne].
  - assert (E2 : j2 = N) by lia. rewrite E2. rewrite Nat.sub_diag. cbn [set_cols].
    apply consumes_bind with (P' := stops C) (a := tt) (t' := t).
    + apply band_pre_ok; auto.
    + unfold w_sep, w_post, r_sep, r_post. cbn [wloop rloop].
      destruct (usecompact s); apply consumes_bind with (P' := stops C) (a := tt) (t' := t); auto; apply consumes_ret.
    + intros k Hk. unfold w_sep, w_post. cbn [wloop app]. destruct (usecompact s); exact Hk.
  - apply consumes_bind with (P' := always) (a := tt) (t' := t); [| |intros; exact I].
    + destruct (usecompact s) eqn:U; [apply consumes_ret|].
      apply consumes_eq with (u' := w_pre j1); [|apply pre_ok].
      unfold w_pre. clear - Hne Hj. assert (X : forall n lo, (lo + n <= j1)%nat ->
        wloop n lo (fun _ => write_value s C v0 ++ s_space s) =
        wloop n lo (fun j => write_value s C v0 ++ (if Nat.ltb j (N - 1) then s_space s else []))).
      { induction n as [|n IH]; intros lo Hlo; [reflexivity|]. cbn [wloop].
        rewrite (proj2 (Nat.ltb_lt lo (N - 1))) by lia. rewrite IH by lia. reflexivity. }
      symmetry. apply X. lia.
    + apply consumes_bind with (P' := stops C) (a := tt) (t' := set_cols false i j1 (j2 - j1) (e i) t).
      * apply put_sep_ok. intros; apply He; lia.
      * destruct (usecompact s); [apply consumes_ret|apply zeros_post_ok].
      * intros k Hk. destruct (usecompact s); [exact Hk|]. apply post_stops, Hk.
Qed.
End Tri.
