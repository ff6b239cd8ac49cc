(** Property C05: copies of a Permutation are isolated from the original.  The
    half "modifying the copy never changes the original" holds for every
    history; the half "the copy keeps its value whatever is done to the
    original" is false, with the witnesses below. *)
From Coq Require Import List Arith Lia Bool.
From Verif Require Import Base PermHeap.
Import ListNotations.

(** In every history [h0], after copying y into a new object x, the copy has
    the value of y, and no sequence of operations on x (identity, transpose,
    resize, sort/decompose into x, read, destruction) changes the value of any
    other object. *)
Theorem C05_modifying_copy_changes_nothing_else_partial :
  forall h0 s x y s1 ms s2,
    run h0 st0 = Ok s -> step s (OCopy x y) = Ok s1 ->
    Forall (mutator x) ms -> run ms s1 = Ok s2 ->
    value s1 x = value s y /\ (forall z, z <> x -> value s2 z = value s z).
Proof.
  intros h0 s x y s1 ms s2 H0 Hc Hm Hr.
  pose proof (run_inv h0 st0 s inv_st0 H0) as I.
  destruct (copy_private s s1 x y Hc) as [P [V W]].
  split; [exact V|]. intros z Hz. rewrite <- (W z Hz).
  exact (run_mutators s1 s2 x ms (step_inv s _ s1 I Hc) P Hm Hr z Hz).
Qed.
Print Assumptions C05_modifying_copy_changes_nothing_else_partial.

(** The copy keeps its value through every history that neither modifies nor
    destroys the copy or the object that owns the data ("owner": its itsmem is
    the block that the copy refers to). *)
Theorem C05_copy_keeps_value_while_owner_untouched_partial :
  forall h0 s x y s1 o b h s2,
    run h0 st0 = Ok s -> step s (OCopy x y) = Ok s1 ->
    objs s y = Some o -> omem o = Some b ->
    Forall (fun c => ~ modifies c x /\ ~ modifies c y) h -> run h s1 = Ok s2 ->
    value s2 x = value s y.
Proof.
  intros h0 s x y s1 o b h s2 H0 Hc Hy Hb F Hr.
  pose proof (run_inv h0 st0 s inv_st0 H0) as I.
  assert (I1 := step_inv s _ s1 I Hc).
  destruct (copy_private s s1 x y Hc) as [P [V W]].
  rewrite <- V.
  assert (Hp := inv_own s I y o b Hy Hb).
  cbn [step] in Hc. unfold get_obj in Hc. destruct (objs s x) eqn:Hx; [discriminate|].
  rewrite Hy in Hc. cbn [bindO] in Hc. injection Hc as <-.
  eapply (run_keeps _ s2 x y b (mkObj (on o) None (optr o) (oinv o))); eauto.
  - exists o. split; auto. simpl. rewrite setf_neq; auto. intros ->. congruence.
  - simpl. apply setf_eq.
Qed.
Print Assumptions C05_copy_keeps_value_while_owner_untouched_partial.

(** What is observed of object x after history h, and whether h itself runs
    without undefined behaviour. *)
Definition observe (h : list op) (x : nat) := do s <- run h st0; value s x.
Definition runs (h : list op) : bool := match run h st0 with Ok _ => true | _ => false end.

(** A history meeting the hypotheses of both: 0 is filled by a sort, copied to
    1, and the copy is reset, transposed, resized and read into. *)
Definition ex_h := [ONew 0 3; OProduce 0 [2; 2; 2] false].
Definition ex_ms := [OIdentity 1; OTransposeSelf 1; OResize 1 5; ORead 1 [1; 1; 2; 3; 4] true].

Example C05_hyp :
  observe (ex_h ++ [OCopy 1 0]) 1 = Ok ([2; 2; 2], false) /\
  runs (ex_h ++ [OCopy 1 0] ++ ex_ms) = true /\ Forall (mutator 1) ex_ms /\
  observe (ex_h ++ [OCopy 1 0] ++ ex_ms) 0 = Ok ([2; 2; 2], false) /\
  observe (ex_h ++ [OCopy 1 0] ++ ex_ms) 1 = Ok ([1; 1; 2; 3; 4], true) /\
  match run ex_h st0 with
  | Ok s => match objs s 0 with Some o => omem o = Some 0 | None => False end
  | _ => False
  end /\
  observe (ex_h ++ [OCopy 1 0; ONew 2 4; OAssign 2 0; OIdentity 2; ODestroy 2]) 1
    = Ok ([2; 2; 2], false).
Proof.
  split; [vm_compute; reflexivity|]. split; [vm_compute; reflexivity|].
  split; [repeat constructor|]. split; [vm_compute; reflexivity|].
  split; [vm_compute; reflexivity|]. split; vm_compute; reflexivity.
Qed.

(** Finding 1: setToIdentity on the original changes the copy (the copy
    constructor takes the raw pointer). *)
Theorem C05_original_modified_refuted :
  exists h x y c, x <> y /\ mutator y c /\ runs (h ++ [OCopy x y; c]) = true /\
    observe (h ++ [OCopy x y]) x = Ok ([2; 2; 2], false) /\
    observe (h ++ [OCopy x y; c]) x = Ok ([0; 1; 2], false).
Proof.
  exists ex_h, 1, 0, (OIdentity 0). split; [discriminate|]. split; [constructor|].
  repeat split; vm_compute; reflexivity.
Qed.
Print Assumptions C05_original_modified_refuted.

(** Finding 2: destroying, growing or assigning to the original leaves the copy
    dangling. *)
Theorem C05_original_gone_refuted :
  exists h, observe h 1 = Ok ([2; 2; 2], false) /\
    Forall (fun c => runs (h ++ [c]) = true /\ observe (h ++ [c]) 1 = UB)
      [ODestroy 0; OResize 0 4; OAssign 0 2].
Proof.
  exists (ex_h ++ [OCopy 1 0; ONew 2 3]). split; [vm_compute; reflexivity|].
  repeat constructor.
Qed.
Print Assumptions C05_original_gone_refuted.

(** Finding 3: p = p leaves p dangling. *)
Theorem C05_self_assignment_refuted :
  observe [ONew 0 3] 0 = Ok ([0; 1; 2], false) /\
  runs [ONew 0 3; OAssign 0 0] = true /\ observe [ONew 0 3; OAssign 0 0] 0 = UB.
Proof. repeat split; vm_compute; reflexivity. Qed.
Print Assumptions C05_self_assignment_refuted.

(** Finding 4: reading a permutation of the same or a smaller size into a copy
    writes through a null pointer (read does not call allocateMem). *)
Theorem C05_read_into_copy_refuted :
  runs [ONew 0 3; OCopy 1 0] = true /\
  run [ONew 0 3; OCopy 1 0; ORead 1 [1; 1; 2] false] st0 = UB.
Proof. split; vm_compute; reflexivity. Qed.
Print Assumptions C05_read_into_copy_refuted.

(** What each operation does to the object it is called on, for every reachable
    state: size and contents as a user reads them. *)
Lemma all_init_some l : all_init (map Some l) = Ok l.
Proof. induction l as [|a l IH]; [reflexivity|]. cbn. rewrite IH. reflexivity. Qed.

Lemma write_mem_some s b vals s' : vals <> [] -> write_mem s (Some b) vals = Ok s' ->
  exists l, length vals <= length l /\
    s' = mkSt (setf (heap s) b (Some (map Some vals ++ skipn (length vals) l))) (nxt s) (objs s).
Proof.
  intros N E. destruct vals as [|v vs]; [contradiction|].
  unfold write_mem in E. destruct (heap s b) as [l|]; [|discriminate].
  destruct (Nat.leb_spec (length (v :: vs)) (length l)) as [L|L]; [|discriminate].
  injection E as <-. exists l. auto.
Qed.

Lemma value_written s m vals s' x i :
  write_mem s m vals = Ok s' -> (vals <> [] -> exists b, m = Some b) ->
  value (set_obj s' x (Some (mkObj (length vals) m m i))) x = Ok (vals, i).
Proof.
  intros E Hm. unfold value, get_obj, set_obj. cbn [objs heap]. rewrite setf_eq. cbn [bindO on optr oinv].
  destruct (Nat.eqb_spec (length vals) 0) as [Z|Z].
  - destruct vals; [reflexivity|discriminate].
  - assert (N : vals <> []) by (intros ->; apply Z; reflexivity).
    destruct (Hm N) as [b ->]. destruct (write_mem_some s b vals s' N E) as [l [L ->]].
    cbn [heap]. rewrite setf_eq, app_length, map_length.
    destruct (Nat.leb_spec (length vals) (length vals + length (skipn (length vals) l))); [|lia].
    rewrite firstn_app, map_length, Nat.sub_diag, firstn_O, app_nil_r.
    replace (firstn (length vals) (map Some vals)) with (map Some vals).
    + rewrite all_init_some. reflexivity.
    + rewrite <- (map_length Some vals) at 1. symmetry. apply firstn_all.
Qed.

Lemma write_defined s m vals : vals <> [] -> (exists s', write_mem s m vals = Ok s') -> exists b, m = Some b.
Proof. intros N [s' E]. destruct vals; [contradiction|]. destruct m as [b|]; [eauto|discriminate]. Qed.

Theorem C05_operation_effects :
  forall h s x, run h st0 = Ok s ->
    (forall n s1, step s (ONew x n) = Ok s1 -> value s1 x = Ok (seq 0 n, false)) /\
    (forall l i s1, value s x = Ok (l, i) -> step s (OTransposeSelf x) = Ok s1 -> value s1 x = Ok (l, negb i)) /\
    (forall l i s1, value s x = Ok (l, i) -> step s (OIdentity x) = Ok s1 ->
       value s1 x = Ok (seq 0 (length l), false)) /\
    (forall vals i s1, step s (OProduce x vals i) = Ok s1 -> value s1 x = Ok (vals, i)) /\
    (forall vals i s1, step s (ORead x vals i) = Ok s1 -> value s1 x = Ok (vals, i)) /\
    (forall y s1, x <> y -> step s (OSwap x y) = Ok s1 -> value s1 x = value s y /\ value s1 y = value s x) /\
    (forall y s1, step s (OCopy x y) = Ok s1 -> value s1 x = value s y).
Proof.
  intros h s x Hr. pose proof (run_inv h st0 s inv_st0 Hr) as I.
  assert (AM : forall s0 o s1 o1, allocate_mem s0 o = (s1, o1) -> (forall b, omem o = Some b -> optr o = Some b) ->
     on o1 = on o /\ (omem o1 = optr o1 \/ on o = 0) /\ (forall b, omem o1 = Some b -> optr o1 = Some b)).
  { intros s0 o s1 o1 E Ho. unfold allocate_mem in E. destruct (omem o) as [b|] eqn:Em.
    - injection E as <- <-. rewrite Em. rewrite (Ho b eq_refl). auto.
    - destruct (arr_resize s0 None (on o)) as [s2 m] eqn:Ea. injection E as <- <-. cbn [on omem optr]. auto. }
  assert (LV : forall s0 l i, value s0 x = Ok (l, i) -> exists o, objs s0 x = Some o /\ length l = on o).
  { intros s0 l i Hv. unfold value, get_obj in Hv. destruct (objs s0 x) as [o|]; [|discriminate].
    exists o. split; [reflexivity|]. cbn [bindO] in Hv.
    destruct (Nat.eqb_spec (on o) 0) as [Z|Z]; [injection Hv as <- <-; rewrite Z; reflexivity|].
    destruct (optr o) as [b|]; [|discriminate]. destruct (heap s0 b) as [c|]; [|discriminate].
    destruct (Nat.leb_spec (on o) (length c)) as [L|L]; [|discriminate].
    destruct (all_init (firstn (on o) c)) as [r| |] eqn:Er; [|discriminate|discriminate].
    cbn in Hv. injection Hv as <- <-.
    assert (G : forall c r, all_init c = Ok r -> length r = length c).
    { clear. induction c as [|[v|] c IH]; intros r E; cbn in E; try discriminate.
      - injection E as <-. reflexivity.
      - destruct (all_init c) as [r'| |] eqn:E'; try discriminate. cbn in E. injection E as <-.
        cbn. rewrite (IH r' eq_refl). reflexivity. }
    rewrite (G _ _ Er), firstn_length. lia. }
  split; [|split; [|split; [|split; [|split; [|split]]]]].
  - intros n s1 E. cbn [step] in E. destruct (objs s x); [discriminate|].
    destruct (arr_resize s None n) as [s2 m] eqn:Ea.
    destruct (write_mem s2 m (seq 0 n)) as [s3| |] eqn:Ew; cbn [bindO] in E; try discriminate.
    injection E as <-. rewrite <- (seq_length n 0) at 1. apply (value_written s2); [exact Ew|].
    intro N. apply (write_defined s2 m (seq 0 n) N). eauto.
  - intros l i s1 Hv E. cbn [step] in E. unfold value in *. unfold get_obj in *.
    destruct (objs s x) as [o|]; [|discriminate]. cbn [bindO] in *. injection E as <-.
    unfold set_obj. cbn [objs heap]. rewrite setf_eq. cbn [bindO on optr oinv].
    destruct (on o =? 0); [injection Hv as <- <-; reflexivity|].
    destruct (optr o) as [b|]; [|discriminate]. destruct (heap s b) as [c|]; [|discriminate].
    destruct (on o <=? length c); [|discriminate].
    destruct (all_init (firstn (on o) c)) as [r| |]; [|discriminate|discriminate].
    cbn in *. injection Hv as <- <-. reflexivity.
  - intros l i s1 Hv E. destruct (LV s l i Hv) as [o [Ho Ln]]. cbn [step] in E. unfold get_obj in E.
    rewrite Ho in E. cbn [bindO] in E. destruct (allocate_mem s o) as [s2 o1] eqn:Ea.
    destruct (AM s o s2 o1 Ea (fun b => inv_own s I x o b Ho)) as [A [B C]].
    destruct (write_mem s2 (omem o1) (seq 0 (on o1))) as [s3| |] eqn:Ew; cbn [bindO] in E; try discriminate.
    injection E as <-. rewrite Ln, <- A. destruct (Nat.eq_dec (on o1) 0) as [Z|Z].
    + unfold value, get_obj, set_obj. cbn [objs heap]. rewrite setf_eq. cbn [bindO on oinv]. rewrite Z. reflexivity.
    + destruct B as [B|B]; [|lia]. rewrite <- B. rewrite <- (seq_length (on o1) 0) at 1.
      apply (value_written s2); [exact Ew|]. intro N. apply (write_defined s2 _ (seq 0 (on o1)) N). eauto.
  - intros vals i s1 E. cbn [step] in E. unfold get_obj in E. destruct (objs s x) as [o|] eqn:Ho; [|discriminate].
    cbn [bindO] in E. destruct (resize s o (length vals)) as [s2 o1] eqn:Er.
    destruct (allocate_mem s2 o1) as [s3 o2] eqn:Ea.
    assert (R : on o1 = length vals /\ forall b, omem o1 = Some b -> optr o1 = Some b).
    { unfold resize in Er. destruct (on o <? length vals).
      - destruct (arr_resize s (omem o) (length vals)) as [sx m]. injection Er as <- <-. cbn. auto.
      - injection Er as <- <-. cbn. split; [reflexivity|]. intros b Hb. exact (inv_own s I x o b Ho Hb). }
    destruct (AM s2 o1 s3 o2 Ea (proj2 R)) as [A [B C]].
    destruct (write_mem s3 (omem o2) vals) as [s4| |] eqn:Ew; cbn [bindO] in E; try discriminate.
    injection E as <-. rewrite A, (proj1 R). destruct vals as [|v vs].
    + unfold value, get_obj, set_obj. cbn [objs heap]. rewrite setf_eq. reflexivity.
    + destruct B as [B|B]; [|rewrite (proj1 R) in B; discriminate]. rewrite <- B.
      apply (value_written s3); [exact Ew|]. intro N. apply (write_defined s3 _ (v :: vs) N). eauto.
  - intros vals i s1 E. cbn [step] in E. unfold get_obj in E. destruct (objs s x) as [o|] eqn:Ho; [|discriminate].
    cbn [bindO] in E.
    destruct (if length vals =? on o then (s, o) else resize s o (length vals)) as [s2 o1] eqn:Er.
    assert (R : on o1 = length vals /\ forall b, omem o1 = Some b -> optr o1 = Some b).
    { destruct (Nat.eqb_spec (length vals) (on o)) as [Q|Q].
      - injection Er as <- <-. split; [auto|]. intros b Hb. exact (inv_own s I x o b Ho Hb).
      - unfold resize in Er. destruct (on o <? length vals).
        + destruct (arr_resize s (omem o) (length vals)) as [sx m]. injection Er as <- <-. cbn. auto.
        + injection Er as <- <-. cbn. split; [reflexivity|]. intros b Hb. exact (inv_own s I x o b Ho Hb). }
    destruct (write_mem s2 (omem o1) vals) as [s4| |] eqn:Ew; cbn [bindO] in E; try discriminate.
    injection E as <-. rewrite (proj1 R). destruct vals as [|v vs].
    + unfold value, get_obj, set_obj. cbn [objs heap]. rewrite setf_eq. reflexivity.
    + destruct (write_defined s2 (omem o1) (v :: vs)) as [b Hb]; [discriminate|eauto|].
      rewrite (proj2 R b Hb), Hb. apply (value_written s2); [rewrite <- Hb; exact Ew|]. eauto.
  - intros y s1 N E. cbn [step] in E. unfold get_obj in E.
    destruct (objs s x) as [o|] eqn:Ho; [|discriminate]. destruct (objs s y) as [r|] eqn:Hy; [|discriminate].
    cbn [bindO] in E. destruct (Nat.eqb_spec (on o) (on r)) as [Q|Q]; [|discriminate]. injection E as <-.
    unfold value, get_obj, set_obj. cbn [objs heap]. rewrite setf_eq, (setf_neq _ y _ x N), setf_eq, Ho, Hy.
    cbn [bindO on optr oinv]. rewrite Q. split; reflexivity.
  - intros y s1 E. destruct (copy_private s s1 x y E) as [_ [V _]]. exact V.
Qed.
Print Assumptions C05_operation_effects.

Example C05_effects_hyp :
  observe [ONew 0 3; OProduce 0 [2; 1; 2] false; OTransposeSelf 0] 0 = Ok ([2; 1; 2], true) /\
  observe [ONew 0 3; OProduce 0 [2; 1; 2] false; OCopy 1 0; OIdentity 1] 1 = Ok ([0; 1; 2], false) /\
  observe [ONew 0 2; ONew 1 2; OProduce 1 [1; 1] true; OSwap 0 1] 0 = Ok ([1; 1], true) /\
  observe [ONew 0 2; ORead 0 [2; 2; 2] false] 0 = Ok ([2; 2; 2], false).
Proof. repeat split; vm_compute; reflexivity. Qed.
