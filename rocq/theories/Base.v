(** Common vocabulary of the memory-level model: outcomes, finite loops,
    list cells.  Stdlib only. *)
From Coq Require Import List Arith Lia Bool.
Import ListNotations.

(** What a C++ call can do: return, throw one of TMV's exceptions
    (include/tmv/TMV_Base.h, class Error and its descendants; a failing
    TMVAssert2 is [FailedAssert]), or have undefined behaviour. *)
Inductive exn : Type := ReadError | Singular | NonPosDef | FailedAssert.

Inductive outcome (A : Type) : Type :=
| Ok (a : A)
| Throw (e : exn)
| UB.
Arguments Ok {A} a.
Arguments Throw {A} e.
Arguments UB {A}.

Definition bindO {A B} (x : outcome A) (f : A -> outcome B) : outcome B :=
  match x with Ok a => f a | Throw e => Throw e | UB => UB end.

Notation "'do' x <- e ; f" := (bindO e (fun x => f))
  (at level 200, x pattern, e at level 100, f at level 200).

(** [for (i = lo; i < lo+n; ++i) s = f(i,s);] *)
Fixpoint for_up {St : Type} (n lo : nat) (f : nat -> St -> outcome St) (s : St)
  : outcome St :=
  match n with
  | 0 => Ok s
  | S n' => do s' <- f lo s; for_up n' (S lo) f s'
  end.

(** [for (i = lo+n; i > lo; ) { --i; s = f(i,s); }] *)
Fixpoint for_down {St : Type} (n lo : nat) (f : nat -> St -> outcome St) (s : St)
  : outcome St :=
  match n with
  | 0 => Ok s
  | S n' => do s' <- f (lo + n') s; for_down n' lo f s'
  end.

(** Hoare rules for the two loops. *)
Lemma for_up_inv {St} (I : nat -> St -> Prop) n lo f (s : St) :
  I lo s ->
  (forall i s, lo <= i < lo + n -> I i s -> exists s', f i s = Ok s' /\ I (i + 1) s') ->
  exists s', for_up n lo f s = Ok s' /\ I (lo + n) s'.
Proof.
  revert lo s. induction n as [|n IH]; intros lo s H0 Hs; simpl.
  - exists s. rewrite Nat.add_0_r. auto.
  - destruct (Hs lo s) as [s1 [E1 H1]]; [lia|auto|].
    rewrite E1. simpl.
    replace (lo + S n) with (S lo + n) by lia.
    apply IH.
    + replace (S lo) with (lo + 1) by lia. exact H1.
    + intros i s' Hi. apply Hs. lia.
Qed.

Lemma for_down_inv {St} (I : nat -> St -> Prop) n lo f (s : St) :
  I (lo + n) s ->
  (forall i s, lo <= i < lo + n -> I (i + 1) s -> exists s', f i s = Ok s' /\ I i s') ->
  exists s', for_down n lo f s = Ok s' /\ I lo s'.
Proof.
  revert s. induction n as [|n IH]; intros s H0 Hs; simpl.
  - exists s. rewrite Nat.add_0_r in H0. auto.
  - destruct (Hs (lo + n) s) as [s1 [E1 H1]].
    + lia.
    + replace (lo + n + 1) with (lo + S n) by lia. exact H0.
    + rewrite E1. simpl. apply IH; [exact H1|].
      intros i s' Hi. apply Hs. lia.
Qed.

Lemma for_up_app {St} n1 n2 lo f (s : St) :
  for_up (n1 + n2) lo f s = do s' <- for_up n1 lo f s; for_up n2 (lo + n1) f s'.
Proof.
  revert lo s. induction n1 as [|n1 IH]; intros lo s; simpl.
  - rewrite Nat.add_0_r. reflexivity.
  - destruct (f lo s); simpl; auto.
    rewrite IH. replace (lo + S n1) with (S lo + n1) by lia. reflexivity.
Qed.

Lemma for_up_ext {St} n lo f g (s : St) :
  (forall i s, lo <= i < lo + n -> f i s = g i s) ->
  for_up n lo f s = for_up n lo g s.
Proof.
  revert lo s. induction n as [|n IH]; intros lo s H; simpl; auto.
  rewrite H by lia. destruct (g lo s); simpl; auto.
  apply IH. intros. apply H. lia.
Qed.

(** Overwriting one cell of a list. *)
Fixpoint upd {A} (l : list A) (i : nat) (x : A) : list A :=
  match l, i with
  | [], _ => []
  | _ :: t, 0 => x :: t
  | a :: t, S i' => a :: upd t i' x
  end.

Lemma upd_length {A} (l : list A) i x : length (upd l i x) = length l.
Proof. revert i; induction l; intros [|i]; simpl; auto. Qed.

Lemma nth_error_upd {A} (l : list A) i j x :
  nth_error (upd l i x) j =
  if (j =? i) && (i <? length l) then Some x else nth_error l j.
Proof.
  revert i j. induction l as [|a l IH]; intros i j; simpl.
  - rewrite andb_false_r. destruct i; reflexivity.
  - destruct i as [|i], j as [|j]; simpl; auto.
    rewrite IH. change (S i <? S (length l)) with (i <? length l). reflexivity.
Qed.

Lemma nth_error_ext {A} (l1 l2 : list A) :
  (forall i, nth_error l1 i = nth_error l2 i) -> l1 = l2.
Proof.
  revert l2. induction l1 as [|a l1 IH]; intros [|b l2] H; auto.
  - specialize (H 0). discriminate.
  - specialize (H 0). discriminate.
  - pose proof (H 0) as H0. simpl in H0. injection H0 as ->.
    f_equal. apply IH. intro i. apply (H (S i)).
Qed.

Lemma nth_error_lt {A} (l : list A) i :
  i < length l -> exists a, nth_error l i = Some a.
Proof.
  intro H. destruct (nth_error l i) eqn:E; eauto.
  apply nth_error_None in E. lia.
Qed.

Lemma nth_error_seq n lo i :
  i < n -> nth_error (seq lo n) i = Some (lo + i).
Proof.
  intro H. rewrite (nth_error_nth' _ 0); [|rewrite seq_length; lia].
  rewrite seq_nth; auto.
Qed.
