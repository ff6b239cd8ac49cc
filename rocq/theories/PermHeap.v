(** Ownership of the interchange list of class Permutation: a heap of blocks
    and a store of Permutation objects, with one step function per public
    operation (include/tmv/TMV_Permutation.h, include/tmv/TMV_Array.h). *)
From Coq Require Import List Arith Lia Bool.
From Verif Require Import Base.
Import ListNotations.

Definition setf {A} (f : nat -> A) (k : nat) (v : A) : nat -> A :=
  fun x => if x =? k then v else f x.

(** The data members, TMV_Permutation.h:522-525: itsn; the block owned by
    itsmem (None = null); the block itsp points to; isinv. *)
Record obj := mkObj { on : nat; omem : option nat; optr : option nat; oinv : bool }.

(** Heap: block id -> cells, None = not allocated or freed; a cell is None when
    uninitialised.  Ids are never reused (reuse by operator new would only turn
    a detected dangling read into a wrong value). *)
Record st := mkSt { heap : nat -> option (list (option nat)); nxt : nat; objs : nat -> option obj }.

Definition st0 : st := mkSt (fun _ => None) 0 (fun _ => None).

(** AlignedMemory::deallocate, TMV_Array.h:86-87. *)
Definition free_blk (h : nat -> option (list (option nat))) (m : option nat) :=
  match m with Some b => setf h b None | None => h end.

(** AlignedArray::resize, TMV_Array.h:252-263: deallocate, then allocate if n>0. *)
Definition arr_resize (s : st) (m : option nat) (n : nat) : st * option nat :=
  let h := free_blk (heap s) m in
  if n =? 0 then (mkSt h (nxt s) (objs s), None)
  else (mkSt (setf h (nxt s) (Some (repeat None n))) (S (nxt s)) (objs s), Some (nxt s)).

Definition set_obj (s : st) (x : nat) (o : option obj) : st :=
  mkSt (heap s) (nxt s) (setf (objs s) x o).

Definition get_obj (s : st) (x : nat) : outcome obj :=
  match objs s x with Some o => Ok o | None => UB end.

(** itsmem[0..len) = vals.  Writing through a null or freed pointer, or past
    the block, is undefined. *)
Definition write_mem (s : st) (m : option nat) (vals : list nat) : outcome st :=
  match vals with
  | [] => Ok s
  | _ =>
    match m with
    | None => UB
    | Some b =>
      match heap s b with
      | None => UB
      | Some l =>
        if length vals <=? length l then
          Ok (mkSt (setf (heap s) b (Some (map Some vals ++ skipn (length vals) l)))
                   (nxt s) (objs s))
        else UB
      end
    end
  end.

(** allocateMem, TMV_Permutation.h:543-549. *)
Definition allocate_mem (s : st) (o : obj) : st * obj :=
  match omem o with
  | Some _ => (s, o)
  | None => let (s', m) := arr_resize s None (on o) in (s', mkObj (on o) m m (oinv o))
  end.

(** resize(n), TMV_Permutation.h:508-517. *)
Definition resize (s : st) (o : obj) (n : nat) : st * obj :=
  if on o <? n then
    let (s', m) := arr_resize s (omem o) n in (s', mkObj n m m false)
  else (s, mkObj n (omem o) (optr o) false).

Inductive op :=
| ONew (x n : nat)                       (* Permutation x(n), 183-188 *)
| OCopy (x y : nat)                      (* Permutation x(y), 194-195 *)
| OAssign (x y : nat)                    (* x = y, 199-206 *)
| OIdentity (x : nat)                    (* x.setToIdentity(), 350-356 *)
| OTransposeSelf (x : nat)               (* 358-362 *)
| OResize (x n : nat)                    (* 508-517 *)
| OProduce (x : nat) (vals : list nat) (i : bool)
    (* sort / LU / QRP / LDL storing interchanges vals in x, 831-911 *)
| ORead (x : nat) (vals : list nat) (i : bool)
    (* is >> x with a well-formed text of size |vals|, 688-800 *)
| OSwap (x y : nat)                      (* Swap(x,y), 814-820 *)
| ODestroy (x : nat).                    (* ~Permutation, 197 *)

Definition step (s : st) (c : op) : outcome st :=
  match c with
  | ONew x n =>
      match objs s x with
      | Some _ => UB
      | None =>
        let (s1, m) := arr_resize s None n in
        do s2 <- write_mem s1 m (seq 0 n);
        Ok (set_obj s2 x (Some (mkObj n m m false)))
      end
  | OCopy x y =>
      match objs s x with
      | Some _ => UB
      | None =>
        do o <- get_obj s y;
        Ok (set_obj s x (Some (mkObj (on o) None (optr o) (oinv o))))
      end
  | OAssign x y =>
      do o <- get_obj s x;
      do r <- get_obj s y;
      let (s1, m) := arr_resize s (omem o) 0 in
      Ok (set_obj s1 x (Some (mkObj (on r) m (optr r) (oinv r))))
  | OIdentity x =>
      do o <- get_obj s x;
      let (s1, o1) := allocate_mem s o in
      do s2 <- write_mem s1 (omem o1) (seq 0 (on o1));
      Ok (set_obj s2 x (Some (mkObj (on o1) (omem o1) (optr o1) false)))
  | OTransposeSelf x =>
      do o <- get_obj s x;
      Ok (set_obj s x (Some (mkObj (on o) (omem o) (optr o) (negb (oinv o)))))
  | OResize x n =>
      do o <- get_obj s x;
      let (s1, o1) := resize s o n in
      Ok (set_obj s1 x (Some o1))
  | OProduce x vals i =>
      do o <- get_obj s x;
      let (s1, o1) := resize s o (length vals) in
      let (s2, o2) := allocate_mem s1 o1 in
      do s3 <- write_mem s2 (omem o2) vals;
      Ok (set_obj s3 x (Some (mkObj (on o2) (omem o2) (optr o2) i)))
  | ORead x vals i =>
      do o <- get_obj s x;
      let (s1, o1) := if length vals =? on o then (s, o) else resize s o (length vals) in
      do s2 <- write_mem s1 (omem o1) vals;
      Ok (set_obj s2 x (Some (mkObj (on o1) (omem o1) (optr o1) i)))
  | OSwap x y =>
      do o <- get_obj s x;
      do r <- get_obj s y;
      if on o =? on r then
        Ok (set_obj (set_obj s x (Some (mkObj (on o) (omem r) (optr r) (oinv r))))
              y (Some (mkObj (on r) (omem o) (optr o) (oinv o))))
      else UB
  | ODestroy x =>
      do o <- get_obj s x;
      Ok (set_obj (mkSt (free_blk (heap s) (omem o)) (nxt s) (objs s)) x None)
  end.

Fixpoint run (h : list op) (s : st) : outcome st :=
  match h with
  | [] => Ok s
  | c :: h' => do s' <- step s c; run h' s'
  end.

(** What a user can observe of object x: its size and interchange list (all
    element access, apply, det, ... read exactly itsp[0..itsn)) and
    orientation.  A dangling, null or uninitialised read is [UB]. *)
Fixpoint all_init (l : list (option nat)) : outcome (list nat) :=
  match l with
  | [] => Ok []
  | Some v :: l' => do r <- all_init l'; Ok (v :: r)
  | None :: _ => UB
  end.

Definition value (s : st) (x : nat) : outcome (list nat * bool) :=
  do o <- get_obj s x;
  if on o =? 0 then Ok ([], oinv o)
  else match optr o with
       | None => UB
       | Some b =>
         match heap s b with
         | None => UB
         | Some l =>
           if on o <=? length l then
             do r <- all_init (firstn (on o) l); Ok (r, oinv o)
           else UB
         end
       end.

(** ** Invariant of every reachable state *)
Record inv (s : st) : Prop := {
  inv_fresh : forall b, nxt s <= b -> heap s b = None;
  inv_ptr : forall x o b, objs s x = Some o -> optr o = Some b -> b < nxt s;
  inv_mem : forall x o b, objs s x = Some o -> omem o = Some b -> b < nxt s;
  inv_own : forall x o b, objs s x = Some o -> omem o = Some b -> optr o = Some b;
  inv_uniq : forall x y o r b, objs s x = Some o -> objs s y = Some r ->
               omem o = Some b -> omem r = Some b -> x = y
}.

Lemma setf_eq {A} (f : nat -> A) k v : setf f k v k = v.
Proof. unfold setf. rewrite Nat.eqb_refl. reflexivity. Qed.
Lemma setf_neq {A} (f : nat -> A) k v x : x <> k -> setf f k v x = f x.
Proof. intro H. unfold setf. destruct (Nat.eqb_spec x k); congruence. Qed.

Lemma inv_st0 : inv st0.
Proof. constructor; simpl; intros; try discriminate; auto. Qed.

Lemma setf_Some (f : nat -> option obj) k v x o :
  setf f k v x = Some o -> (x = k /\ v = Some o) \/ (x <> k /\ f x = Some o).
Proof. unfold setf. destruct (Nat.eqb_spec x k); auto. Qed.

(** write_mem changes the heap only at its block, which stays allocated. *)
Lemma write_mem_frame s m vals s' :
  write_mem s m vals = Ok s' ->
  nxt s' = nxt s /\ objs s' = objs s /\
  (forall b, m <> Some b -> heap s' b = heap s b) /\
  (forall b, heap s b = None -> heap s' b = None).
Proof.
  unfold write_mem. destruct vals as [|v vals]; [intros [= <-]; auto|].
  destruct m as [b|]; [|discriminate].
  destruct (heap s b) as [l|] eqn:Hb; [|discriminate].
  destruct (_ <=? _); [|discriminate].
  intros [= <-]. simpl. split; [auto|]. split; [auto|]. split.
  - intros b' Hne. apply setf_neq. congruence.
  - intros b' Hn. rewrite setf_neq; auto. congruence.
Qed.

(** The shape shared by all single-object mutators: the target object x gets a
    new record whose owned block is either the old one or fresh; the heap
    changes only at x's old block and at fresh blocks. *)
Definition local_change (s s' : st) (x : nat) : Prop :=
  nxt s <= nxt s' /\
  (forall z, z <> x -> objs s' z = objs s z) /\
  (forall b, nxt s' <= b -> heap s' b = None) /\
  (forall b, b < nxt s -> heap s' b <> heap s b ->
     exists o, objs s x = Some o /\ omem o = Some b) /\
  (forall o', objs s' x = Some o' ->
     (forall b, optr o' = Some b -> b < nxt s') /\
     (forall b, omem o' = Some b ->
        optr o' = Some b /\
        ((exists o, objs s x = Some o /\ omem o = Some b) \/ nxt s <= b < nxt s'))).

Lemma local_change_inv s s' x : inv s -> local_change s s' x -> inv s'.
Proof.
  intros I (Hn & Ho & Hf & Hh & Hx).
  constructor.
  - exact Hf.
  - intros z o b Hz Hb. destruct (Nat.eq_dec z x) as [->|Hne].
    + destruct (Hx o Hz) as [H1 _]. auto.
    + rewrite Ho in Hz by auto. pose proof (inv_ptr s I z o b Hz Hb). lia.
  - intros z o b Hz Hb. destruct (Nat.eq_dec z x) as [->|Hne].
    + destruct (Hx o Hz) as [H1 H2]. destruct (H2 b Hb) as [H3 _]. auto.
    + rewrite Ho in Hz by auto. pose proof (inv_mem s I z o b Hz Hb). lia.
  - intros z o b Hz Hb. destruct (Nat.eq_dec z x) as [->|Hne].
    + destruct (Hx o Hz) as [H1 H2]. destruct (H2 b Hb) as [H3 _]. auto.
    + rewrite Ho in Hz by auto. exact (inv_own s I z o b Hz Hb).
  - assert (K : forall z o r b, z <> x -> objs s' z = Some o -> objs s' x = Some r ->
        omem o = Some b -> omem r = Some b -> False).
    { intros z o r b Hne Hz Hr Ho' Hr'. rewrite Ho in Hz by auto.
      destruct (Hx r Hr) as [_ H2]. destruct (H2 b Hr') as [_ [[o0 [E0 M0]]|Hb]].
      - apply Hne. exact (inv_uniq s I z x o o0 b Hz E0 Ho' M0).
      - pose proof (inv_mem s I z o b Hz Ho'). lia. }
    intros y z o r b Hy Hz Hb Hb'.
    destruct (Nat.eq_dec y x) as [->|Hy'], (Nat.eq_dec z x) as [->|Hz']; auto.
    + exfalso. eapply K; eauto.
    + exfalso. eapply K; eauto.
    + rewrite Ho in Hy, Hz by auto. exact (inv_uniq s I y z o r b Hy Hz Hb Hb').
Qed.

Lemma free_blk_frame h m b : m <> Some b -> free_blk h m b = h b.
Proof. destruct m as [c|]; simpl; auto. intro H. apply setf_neq. congruence. Qed.
Lemma free_blk_None h m b : h b = None -> free_blk h m b = None.
Proof.
  destruct m as [c|]; simpl; auto. intro H. unfold setf. destruct (b =? c); auto.
Qed.

(** arr_resize on x's own block. *)
Lemma arr_resize_spec s m n s' m' :
  (forall b, nxt s <= b -> heap s b = None) ->
  (forall b, m = Some b -> b < nxt s) ->
  arr_resize s m n = (s', m') ->
  nxt s <= nxt s' /\ objs s' = objs s /\
  (forall b, nxt s' <= b -> heap s' b = None) /\
  (forall b, b < nxt s -> m <> Some b -> heap s' b = heap s b) /\
  (forall b, m' = Some b -> nxt s <= b < nxt s').
Proof.
  intros Hf Hm. unfold arr_resize. destruct (n =? 0); intros [= <- <-]; simpl.
  - repeat split; auto; try lia; try discriminate.
    + intros. apply free_blk_None; auto.
    + intros. apply free_blk_frame; auto.
  - repeat split; auto; try lia.
    + intros b Hb. rewrite setf_neq by lia. apply free_blk_None. apply Hf. lia.
    + intros b Hb Hne. rewrite setf_neq by lia. apply free_blk_frame; auto.
    + injection H as <-. lia.
    + injection H as <-. lia.
Qed.

(** Objects in a state where x's record is [o]; the intermediate states of a
    mutator keep objs. *)
Record mid (s : st) (o : obj) (s1 : st) (o1 : obj) : Prop := {
  mid_n : nxt s <= nxt s1;
  mid_objs : objs s1 = objs s;
  mid_fresh : forall b, nxt s1 <= b -> heap s1 b = None;
  mid_heap : forall b, b < nxt s -> omem o <> Some b -> heap s1 b = heap s b;
  mid_ptr : forall b, optr o1 = Some b -> b < nxt s1;
  mid_own : forall b, omem o1 = Some b -> optr o1 = Some b;
  mid_mem : forall b, omem o1 = Some b -> omem o = Some b \/ nxt s <= b < nxt s1
}.

Lemma mid_refl s x o : inv s -> objs s x = Some o -> mid s o s o.
Proof.
  intros I H. constructor; auto.
  - apply (inv_fresh s I).
  - intros b Hb. exact (inv_ptr s I x o b H Hb).
  - intros b Hb. exact (inv_own s I x o b H Hb).
Qed.

Lemma mid_resize s o s1 o1 n s2 o2 :
  mid s o s1 o1 -> resize s1 o1 n = (s2, o2) -> mid s o s2 o2.
Proof.
  intros M. unfold resize. destruct (on o1 <? n).
  - destruct (arr_resize s1 (omem o1) n) as [s' m'] eqn:E.
    intros [= <- <-].
    apply arr_resize_spec in E.
    + destruct E as (En & Eo & Ef & Eh & Em). destruct M. constructor; simpl; auto.
      * lia.
      * congruence.
      * intros b Hb Hne. rewrite Eh.
        -- apply mid_heap0; auto.
        -- lia.
        -- intro X. destruct (mid_mem0 b X) as [Y|Y]; [auto|lia].
      * intros b Hb. apply Em in Hb. lia.
      * intros b Hb. right. apply Em in Hb. lia.
    + apply (mid_fresh _ _ _ _ M).
    + intros b Hb. apply (mid_ptr _ _ _ _ M). apply (mid_own _ _ _ _ M). auto.
  - intros [= <- <-]. destruct M. constructor; simpl; auto.
Qed.

Lemma mid_allocate s o s1 o1 s2 o2 :
  mid s o s1 o1 -> allocate_mem s1 o1 = (s2, o2) -> mid s o s2 o2.
Proof.
  intros M. unfold allocate_mem. destruct (omem o1) as [b1|] eqn:Hm.
  - intros [= <- <-]. exact M.
  - destruct (arr_resize s1 None (on o1)) as [s' m'] eqn:E.
    intros [= <- <-].
    apply arr_resize_spec in E.
    + destruct E as (En & Eo & Ef & Eh & Em). destruct M. constructor; simpl; auto.
      * lia.
      * congruence.
      * intros b Hb Hne. rewrite Eh; auto; [lia|discriminate].
      * intros b Hb. apply Em in Hb. lia.
      * intros b Hb. right. apply Em in Hb. lia.
    + apply (mid_fresh _ _ _ _ M).
    + discriminate.
Qed.

Lemma mid_write s o s1 o1 vals s2 :
  mid s o s1 o1 -> write_mem s1 (omem o1) vals = Ok s2 -> mid s o s2 o1.
Proof.
  intros M W. apply write_mem_frame in W. destruct W as (Wn & Wo & Wh & Wf).
  destruct M. constructor; simpl; auto.
  - lia.
  - congruence.
  - intros b Hb. apply Wf, mid_fresh0. lia.
  - intros b Hb Hne. rewrite Wh; auto.
    intro X. destruct (mid_mem0 b X) as [Y|Y]; [auto|lia].
  - intros b Hb. rewrite Wn. auto.
  - intros b Hb. rewrite Wn. auto.
Qed.

Lemma mid_local s x o s1 o1 i :
  objs s x = Some o -> mid s o s1 o1 ->
  local_change s (set_obj s1 x (Some (mkObj (on o1) (omem o1) (optr o1) i))) x.
Proof.
  intros Hx M. destruct M. unfold local_change, set_obj. simpl. repeat split.
  - lia.
  - intros z Hz. rewrite setf_neq by auto. congruence.
  - auto.
  - intros b Hb Hne. exists o. split; auto.
    destruct (omem o) as [c|] eqn:Hc.
    + destruct (Nat.eq_dec c b) as [->|X]; auto. exfalso. apply Hne, mid_heap0; congruence.
    + exfalso. apply Hne, mid_heap0; congruence.
  - intros b. rewrite setf_eq in H. injection H as <-. simpl. auto.
  - rewrite setf_eq in H. injection H as <-. simpl in *. auto.
  - rewrite setf_eq in H. injection H as <-. simpl in *.
    destruct (mid_mem0 b H0) as [Y|Y]; [left; exists o; auto|right; lia].
Qed.

(** The mutators of a single object. *)
Inductive mutator (x : nat) : op -> Prop :=
| M_id : mutator x (OIdentity x)
| M_tr : mutator x (OTransposeSelf x)
| M_rs n : mutator x (OResize x n)
| M_pr vals i : mutator x (OProduce x vals i)
| M_rd vals i : mutator x (ORead x vals i)
| M_ds : mutator x (ODestroy x).

Lemma mutator_local s s' x c :
  inv s -> mutator x c -> step s c = Ok s' -> local_change s s' x.
Proof.
  intros I Hm. destruct Hm; cbn [step]; unfold get_obj;
    destruct (objs s x) as [o|] eqn:Hx; cbn [bindO]; try discriminate;
    pose proof (mid_refl s x o I Hx) as M.
  - destruct (allocate_mem s o) as [s1 o1] eqn:E1.
    destruct (write_mem s1 (omem o1) (seq 0 (on o1))) as [s2| |] eqn:E2; try discriminate.
    intros [= <-]. eapply mid_local; eauto. apply (mid_write s o s1 o1 (seq 0 (on o1))); auto.
    apply (mid_allocate s o s o); auto.
  - intros [= <-]. eapply mid_local; eauto.
  - destruct (resize s o n) as [s1 o1] eqn:E1. intros [= <-].
    destruct o1 as [n1 m1 p1 i1]. apply (mid_local s x o s1 (mkObj n1 m1 p1 i1) i1); auto.
    eapply mid_resize; eauto.
  - destruct (resize s o (length vals)) as [s1 o1] eqn:E1.
    destruct (allocate_mem s1 o1) as [s2 o2] eqn:E2.
    destruct (write_mem s2 (omem o2) vals) as [s3| |] eqn:E3; try discriminate.
    intros [= <-]. eapply mid_local; eauto. apply (mid_write s o s2 o2 vals); auto.
    apply (mid_allocate s o s1 o1); auto. apply (mid_resize s o s o (length vals)); auto.
  - destruct (if length vals =? on o then (s, o) else resize s o (length vals)) as [s1 o1] eqn:E1.
    destruct (write_mem s1 (omem o1) vals) as [s2| |] eqn:E2; try discriminate.
    intros [= <-]. eapply mid_local; eauto. apply (mid_write s o s1 o1 vals); auto.
    destruct (_ =? _); [injection E1 as <- <-; exact M|eapply mid_resize; eauto].
  - intros [= <-]. unfold local_change, set_obj. simpl. repeat split; auto.
    + intros z Hz. apply setf_neq; auto.
    + intros b Hb. apply free_blk_None, (inv_fresh s I). auto.
    + intros b Hb Hne. exists o. split; auto.
      destruct (omem o) as [c|] eqn:Hc; simpl in Hne; [|congruence].
      unfold setf in Hne. destruct (Nat.eqb_spec b c); congruence.
    + rewrite setf_eq in H. discriminate.
    + rewrite setf_eq in H. discriminate.
    + rewrite setf_eq in H. discriminate.
Qed.

(** The object a non-Swap operation may modify. *)
Definition target (c : op) : nat :=
  match c with
  | ONew x _ | OCopy x _ | OAssign x _ | OIdentity x | OTransposeSelf x
  | OResize x _ | OProduce x _ _ | ORead x _ _ | OSwap x _ | ODestroy x => x
  end.

Lemma step_local s c s' :
  (forall x y, c <> OSwap x y) -> inv s -> step s c = Ok s' -> local_change s s' (target c).
Proof.
  intros NS I H.
  assert (ML : forall x, mutator x c -> local_change s s' x).
  { intros x Hm. eapply mutator_local; eauto. }
  destruct c as [x n|x y|x y|x|x|x n|x vals i|x vals i|x y|x]; cbn [target];
    try (apply ML; constructor; fail); clear ML.
  - (* new *)
    cbn [step] in H. destruct (objs s x) eqn:Hx; [discriminate|].
    destruct (arr_resize s None n) as [s1 m] eqn:E1.
    destruct (write_mem s1 m (seq 0 n)) as [s2| |] eqn:E2; try discriminate.
    injection H as <-.
    apply arr_resize_spec in E1; [|apply (inv_fresh s I)|discriminate].
    destruct E1 as (En & Eo & Ef & Eh & Em).
    apply write_mem_frame in E2. destruct E2 as (Wn & Wo & Wh & Wf).
    unfold local_change, set_obj. simpl. repeat split.
    + lia.
    + intros z Hz. rewrite setf_neq by auto. congruence.
    + intros b Hb. apply Wf, Ef. lia.
    + intros b Hb Hne. exfalso. apply Hne. rewrite Wh.
      * apply Eh; auto. discriminate.
      * intro X. apply Em in X. lia.
    + rewrite setf_eq in H. injection H as <-. simpl. intros b Hb. apply Em in Hb. lia.
    + rewrite setf_eq in H. injection H as <-. simpl in *. auto.
    + rewrite setf_eq in H. injection H as <-. simpl in *. right. apply Em in H0. lia.
  - (* copy *)
    cbn [step] in H. destruct (objs s x) eqn:Hx; [discriminate|].
    unfold get_obj in H. destruct (objs s y) as [r|] eqn:Hy; [|discriminate].
    cbn [bindO] in H. injection H as <-.
    unfold local_change, set_obj. simpl. repeat split; auto.
    + intros z Hz. apply setf_neq; auto.
    + apply (inv_fresh s I).
    + intros b Hb Hne. congruence.
    + rewrite setf_eq in H. injection H as <-. simpl. intros b Hb.
      exact (inv_ptr s I y r b Hy Hb).
    + rewrite setf_eq in H. injection H as <-. discriminate.
    + rewrite setf_eq in H. injection H as <-. discriminate.
  - (* assign *)
    cbn [step] in H. unfold get_obj in H.
    destruct (objs s x) as [o|] eqn:Hx; [|discriminate]. cbn [bindO] in H.
    destruct (objs s y) as [r|] eqn:Hy; [|discriminate]. cbn [bindO] in H.
    destruct (arr_resize s (omem o) 0) as [s1 m] eqn:E1. injection H as <-.
    assert (Em0 : m = None) by (unfold arr_resize in E1; simpl in E1; congruence).
    apply arr_resize_spec in E1; [|apply (inv_fresh s I)|intros b Hb; exact (inv_mem s I x o b Hx Hb)].
    destruct E1 as (En & Eo & Ef & Eh & Em).
    unfold local_change, set_obj. simpl. repeat split; auto.
    + intros z Hz. rewrite setf_neq by auto. congruence.
    + intros b Hb Hne. exists o. split; auto.
      destruct (omem o) as [c|] eqn:Hc.
      * destruct (Nat.eq_dec c b) as [->|X]; auto. exfalso. apply Hne, Eh; congruence.
      * exfalso. apply Hne, Eh; congruence.
    + rewrite setf_eq in H. injection H as <-. simpl. intros b Hb.
      pose proof (inv_ptr s I y r b Hy Hb). lia.
    + rewrite setf_eq in H. injection H as <-. simpl in *. congruence.
    + rewrite setf_eq in H. injection H as <-. simpl in *. congruence.
  - exfalso. exact (NS x y eq_refl).
Qed.

Lemma step_inv s c s' : inv s -> step s c = Ok s' -> inv s'.
Proof.
  intros I H.
  destruct c as [x n|x y|x y|x|x|x n|x vals i|x vals i|x y|x];
    try (eapply local_change_inv; [exact I|eapply step_local; [|exact I|exact H]; discriminate]).
  - (* swap *)
    cbn [step] in H. unfold get_obj in H.
    destruct (objs s x) as [o|] eqn:Hx; [|discriminate]. cbn [bindO] in H.
    destruct (objs s y) as [r|] eqn:Hy; [|discriminate]. cbn [bindO] in H.
    destruct (on o =? on r); [|discriminate]. injection H as <-.
    assert (K : forall z q, setf (setf (objs s) x (Some (mkObj (on o) (omem r) (optr r) (oinv r))))
              y (Some (mkObj (on r) (omem o) (optr o) (oinv o))) z = Some q ->
       exists q', objs s (if z =? y then x else if z =? x then y else z) = Some q' /\
         omem q = omem q' /\ optr q = optr q').
    { intros z q Hz. unfold setf in Hz.
      destruct (Nat.eqb_spec z y) as [->|Hzy].
      - injection Hz as <-. exists o. auto.
      - destruct (Nat.eqb_spec z x) as [->|Hzx].
        + injection Hz as <-. exists r. auto.
        + exists q. auto. }
    constructor; unfold set_obj; simpl.
    + apply (inv_fresh s I).
    + intros z q b Hz Hb. apply K in Hz. destruct Hz as [q' [Hq' [_ E]]].
      eapply (inv_ptr s I); eauto. congruence.
    + intros z q b Hz Hb. apply K in Hz. destruct Hz as [q' [Hq' [E _]]].
      eapply (inv_mem s I); eauto. congruence.
    + intros z q b Hz Hb. apply K in Hz. destruct Hz as [q' [Hq' [E E']]].
      rewrite E'. eapply (inv_own s I); eauto. congruence.
    + intros z w q q2 b Hz Hw Hb Hb2.
      apply K in Hz. destruct Hz as [q' [Hq' [E _]]].
      apply K in Hw. destruct Hw as [q2' [Hq2' [E2 _]]].
      assert (X := inv_uniq s I _ _ _ _ b Hq' Hq2' ltac:(congruence) ltac:(congruence)).
      destruct (Nat.eqb_spec z y), (Nat.eqb_spec w y),
        (Nat.eqb_spec z x), (Nat.eqb_spec w x); subst; auto; congruence.
Qed.

Lemma run_inv h s s' : inv s -> run h s = Ok s' -> inv s'.
Proof.
  revert s. induction h as [|c h IH]; simpl; intros s I H.
  - congruence.
  - destruct (step s c) as [s1| |] eqn:E; try discriminate. simpl in H.
    eapply IH; [eapply step_inv|]; eauto.
Qed.

(** ** Frame: an object's value depends on its record and its block. *)
Lemma value_frame s s' z :
  objs s' z = objs s z ->
  (forall o b, objs s z = Some o -> optr o = Some b -> heap s' b = heap s b) ->
  value s' z = value s z.
Proof.
  intros Ho Hh. unfold value, get_obj. rewrite Ho.
  destruct (objs s z) as [o|] eqn:Hz; [|reflexivity]. cbn [bindO].
  destruct (on o =? 0); [reflexivity|].
  destruct (optr o) as [b|] eqn:Hb; [|reflexivity].
  rewrite (Hh o b eq_refl Hb). reflexivity.
Qed.

(** x's owned block is referenced by nobody else. *)
Definition private (s : st) (x : nat) : Prop :=
  forall o b z r, objs s x = Some o -> omem o = Some b ->
    z <> x -> objs s z = Some r -> optr r <> Some b.

Definition blk_eq_dec (a b : option (list (option nat))) : {a = b} + {a <> b}.
Proof. repeat decide equality. Defined.

Lemma mutator_private s s' x c :
  inv s -> private s x -> mutator x c -> step s c = Ok s' ->
  private s' x /\ (forall z, z <> x -> objs s' z = objs s z /\ value s' z = value s z).
Proof.
  intros I P Hm Hs. pose proof (mutator_local s s' x c I Hm Hs) as (Hn & Ho & Hf & Hh & Hx).
  split.
  - intros o b z r Hxo Hb Hz Hr Hp. rewrite Ho in Hr by auto.
    destruct (Hx o Hxo) as [_ H2]. destruct (H2 b Hb) as [_ [[o0 [E0 M0]]|Hlt]].
    + exact (P o0 b z r E0 M0 Hz Hr Hp).
    + pose proof (inv_ptr s I z r b Hr Hp). lia.
  - intros z Hz. split; [auto|]. apply value_frame; [auto|].
    intros o b Hzo Hb.
    destruct (blk_eq_dec (heap s' b) (heap s b)) as [E|Hne]; [exact E|exfalso].
    pose proof (inv_ptr s I z o b Hzo Hb) as Hlt.
    destruct (Hh b Hlt Hne) as [o0 [E0 M0]].
    exact (P o0 b z o E0 M0 Hz Hzo Hb).
Qed.

Lemma run_mutators s s' x h :
  inv s -> private s x -> Forall (mutator x) h -> run h s = Ok s' ->
  forall z, z <> x -> value s' z = value s z.
Proof.
  revert s. induction h as [|c h IH]; simpl; intros s I P F H z Hz.
  - congruence.
  - inversion F; subst. destruct (step s c) as [s1| |] eqn:E; try discriminate. simpl in H.
    destruct (mutator_private s s1 x c I P H2 E) as [P1 V].
    rewrite <- (proj2 (V z Hz)). apply IH; auto. eapply step_inv; eauto.
Qed.

Lemma copy_private s s' x y :
  step s (OCopy x y) = Ok s' ->
  private s' x /\ value s' x = value s y /\ forall z, z <> x -> value s' z = value s z.
Proof.
  cbn [step]. unfold get_obj. destruct (objs s x) eqn:Hx; [discriminate|].
  destruct (objs s y) as [r|] eqn:Hy; [|discriminate]. cbn [bindO]. intros [= <-].
  split; [|split].
  - intros o b z q Ho Hb. simpl in Ho. rewrite setf_eq in Ho. injection Ho as <-. discriminate.
  - unfold value, get_obj. simpl. rewrite setf_eq, Hy. reflexivity.
  - intros z Hz. apply value_frame; auto. simpl. apply setf_neq; auto.
Qed.

Lemma assign_private s s' x y :
  inv s -> x <> y -> private s x -> step s (OAssign x y) = Ok s' ->
  private s' x /\ value s' x = value s y /\ forall z, z <> x -> value s' z = value s z.
Proof.
  intros I Hxy P. cbn [step]. unfold get_obj. destruct (objs s x) as [o|] eqn:Hx; [|discriminate].
  cbn [bindO]. destruct (objs s y) as [r|] eqn:Hy; [|discriminate]. cbn [bindO].
  unfold arr_resize. cbn [Nat.eqb]. intros [= <-].
  assert (F : forall z q b, z <> x -> objs s z = Some q -> optr q = Some b ->
      free_blk (heap s) (omem o) b = heap s b).
  { intros z q b Hz Hq Hb. apply free_blk_frame. intro E.
    exact (P o b z q Hx E Hz Hq Hb). }
  split; [|split].
  - intros o' b z q Ho Hb. simpl in Ho. rewrite setf_eq in Ho. injection Ho as <-. discriminate.
  - unfold value, get_obj. simpl. rewrite setf_eq, Hy. cbn [bindO on optr oinv].
    destruct (on r =? 0); auto. destruct (optr r) as [b|] eqn:Hb; auto.
    rewrite (F y r b); auto.
  - intros z Hz. apply value_frame; simpl.
    + apply setf_neq; auto.
    + intros q b Hq Hb. eapply F; eauto.
Qed.

(** ** A copy keeps its value while the owner of the data is left alone *)

(** The objects an operation modifies or destroys. *)
Definition modifies (c : op) (z : nat) : Prop :=
  match c with OSwap x y => z = x \/ z = y | _ => z = target c end.

Definition owner (s : st) (y b : nat) : Prop :=
  exists o, objs s y = Some o /\ omem o = Some b.

Lemma step_keeps s c s' y b :
  inv s -> owner s y b -> step s c = Ok s' -> ~ modifies c y ->
  owner s' y b /\ heap s' b = heap s b.
Proof.
  intros I [o [Hy Hb]] H Hm.
  assert (Hlt := inv_mem s I y o b Hy Hb).
  destruct (match c with OSwap _ _ => true | _ => false end) eqn:E.
  - destruct c; try discriminate. cbn [step] in H. unfold get_obj in H.
    destruct (objs s x) as [q|]; [|discriminate]. cbn [bindO] in H.
    destruct (objs s y0) as [r|]; [|discriminate]. cbn [bindO] in H.
    destruct (on q =? on r); [|discriminate]. injection H as <-.
    split; [|reflexivity]. exists o. split; auto. simpl in *.
    rewrite !setf_neq; auto.
  - assert (NS : forall x z, c <> OSwap x z) by (intros x z ->; discriminate).
    assert (Hm' : y <> target c) by (destruct c; simpl in *; auto; discriminate).
    destruct (step_local s c s' NS I H) as (Hn & Ho & Hf & Hh & Hx).
    split.
    + exists o. rewrite Ho by auto. auto.
    + destruct (blk_eq_dec (heap s' b) (heap s b)) as [F|Hne]; [exact F|exfalso].
      destruct (Hh b Hlt Hne) as [o0 [E0 M0]].
      apply Hm'. exact (inv_uniq s I y (target c) o o0 b Hy E0 Hb M0).
Qed.

Lemma step_other s c s' x : step s c = Ok s' -> inv s -> ~ modifies c x -> objs s' x = objs s x.
Proof.
  intros H I Hm.
  destruct (match c with OSwap _ _ => true | _ => false end) eqn:E.
  - destruct c; try discriminate. cbn [step] in H. unfold get_obj in H.
    destruct (objs s x0) as [q|]; [|discriminate]. cbn [bindO] in H.
    destruct (objs s y) as [r|]; [|discriminate]. cbn [bindO] in H.
    destruct (on q =? on r); [|discriminate]. injection H as <-.
    simpl in *. rewrite !setf_neq; auto.
  - assert (NS : forall a z, c <> OSwap a z) by (intros a z ->; discriminate).
    assert (Hm' : x <> target c) by (destruct c; simpl in *; auto; discriminate).
    destruct (step_local s c s' NS I H) as (Hn & Ho & _). auto.
Qed.

Lemma run_keeps s s' x y b o h :
  inv s -> owner s y b -> objs s x = Some o -> optr o = Some b ->
  Forall (fun c => ~ modifies c x /\ ~ modifies c y) h -> run h s = Ok s' ->
  value s' x = value s x.
Proof.
  revert s. induction h as [|c h IH]; simpl; intros s I Hy Hx Hp F H.
  - congruence.
  - inversion F as [|? ? [F1 F2] F3]; subst.
    destruct (step s c) as [s1| |] eqn:E; try discriminate. simpl in H.
    destruct (step_keeps s c s1 y b I Hy E F2) as [Hy1 Hh].
    pose proof (step_other s c s1 x E I F1) as Hx1.
    assert (I1 : inv s1) by (eapply step_inv; eauto).
    rewrite (IH s1 I1 Hy1 ltac:(congruence) Hp F3 H).
    apply value_frame; auto. intros q b' Hq Hb'. rewrite Hx in Hq. injection Hq as <-.
    congruence.
Qed.
