(** Memory with several allocations, vectors and matrices in it, and the loop
    rules used by the arithmetic of matrices and vectors.  Block 0 holds the
    user's objects (one flat address space, so that two views may overlap in any
    way); every temporary Vector or Matrix a routine allocates is a block of its
    own.  That the addresses used lie inside an allocation is C09. *)
From Coq Require Import ZArith Lia Bool List Ring Arith.
From Verif Require Import Base Scal.
Open Scope Z_scope.

Definition loc := (nat * Z)%type.
Definition leqb (a b : loc) : bool := Nat.eqb (fst a) (fst b) && (snd a =? snd b).
Lemma leqb_spec a b : reflect (a = b) (leqb a b).
Proof.
  destruct a as [a1 a2], b as [b1 b2]. unfold leqb. cbn [fst snd].
  destruct (Nat.eqb_spec a1 b1); cbn [andb].
  - destruct (Z.eqb_spec a2 b2); constructor; congruence.
  - constructor. congruence.
Qed.

Definition hmem (K : scal) := loc -> K.
Definition hset {K : scal} (m : hmem K) (a : loc) (x : K) : hmem K :=
  fun b => if leqb b a then x else m b.

Lemma hset_same {K : scal} (m : hmem K) a x : hset m a x a = x.
Proof. unfold hset. destruct (leqb_spec a a); congruence. Qed.
Lemma hset_other {K : scal} (m : hmem K) a b x : b <> a -> hset m a x b = m b.
Proof. unfold hset. destruct (leqb_spec b a); congruence. Qed.

(** GenVector / VectorView: block, pointer, size, step, conj
    (include/tmv/TMV_Vector.h:1111-1130); GenMatrix / MatrixView: block, pointer,
    colsize, rowsize, stepi, stepj, conj (include/tmv/TMV_Matrix.h:1905-1915). *)
Record vec := mkVec { vb : nat; vp : Z; vs : nat; vst : Z; vcj : bool }.
Record mat := mkMat { ab : nat; ap : Z; acs : nat; ars : nat; asi : Z; asj : Z; acj : bool }.

Definition vloc (v : vec) (i : nat) : loc := (vb v, vp v + Z.of_nat i * vst v).
Definition mloc (A : mat) (i j : nat) : loc :=
  (ab A, ap A + Z.of_nat i * asi A + Z.of_nat j * asj A).

Definition cjif {K : scal} (b : bool) (x : K) : K := if b then cj x else x.
(** Element i of v, element (i,j) of A: cref, TMV_Vector.cpp:66-71, TMV_Matrix.cpp:52-57. *)
Definition vget {K : scal} (m : hmem K) (v : vec) (i : nat) : K := cjif (vcj v) (m (vloc v i)).
Definition mget {K : scal} (m : hmem K) (A : mat) (i j : nat) : K := cjif (acj A) (m (mloc A i j)).

(** iscm(), isrm(), TMV_Matrix.h:961-964. *)
Definition iscm (A : mat) : bool := asi A =? 1.
Definition isrm (A : mat) : bool := asj A =? 1.

(** transpose(), conjugate(), TMV_Matrix.h:1607-1615; conjugate() of a vector,
    TMV_Vector.h:441-442; TMV_ConjOf is NonConj for a real T. *)
Definition tr (A : mat) : mat := mkMat (ab A) (ap A) (ars A) (acs A) (asj A) (asi A) (acj A).
Definition mconj (K : scal) (A : mat) : mat :=
  mkMat (ab A) (ap A) (acs A) (ars A) (asi A) (asj A) (if kcplx K then negb (acj A) else false).
Definition vconj (K : scal) (v : vec) : vec :=
  mkVec (vb v) (vp v) (vs v) (vst v) (if kcplx K then negb (vcj v) else false).

(** A view of a real type is never conjugated. *)
Definition cjok (K : scal) (b : bool) : Prop := b = true -> kcplx K = true.

(** [for(i=0;i<n;++i) s = f(i,s);] *)
Fixpoint upto {S : Type} (n : nat) (f : nat -> S -> S) (s : S) : S :=
  match n with O => s | S k => f k (upto k f s) end.

(** Sum over k < n. *)
Fixpoint sum {K : scal} (n : nat) (f : nat -> K) : K :=
  match n with O => k0 | S k => kadd (sum k f) (f k) end.

(** ** Loop rules *)
Lemma upto_inv {S} (I : nat -> S -> Prop) n f s :
  I O s -> (forall i s, (i < n)%nat -> I i s -> I (i + 1)%nat (f i s)) -> I n (upto n f s).
Proof.
  intros H0 Hs. assert (G : forall k, (k <= n)%nat -> I k (upto k f s)).
  { induction k as [|k IH]; intro Hk; [exact H0|]. cbn [upto].
    replace (Datatypes.S k) with (k + 1)%nat by lia. apply Hs; [lia|]. apply IH. lia. }
  apply G. lia.
Qed.

Section Loops.
Context {K : scal}.
Implicit Types (m : hmem K).

(** A loop that writes v i at d i, whatever it finds there. *)
Lemma upto_scatter (d : nat -> loc) (v : nat -> K) n f m :
  (forall i j, (i < n)%nat -> (j < n)%nat -> d i = d j -> i = j) ->
  (forall i m', (i < n)%nat ->
     (forall l, (forall k, (k < i)%nat -> l <> d k) -> m' l = m l) ->
     f i m' = hset m' (d i) (v i)) ->
  (forall i, (i < n)%nat -> upto n f m (d i) = v i) /\
  (forall l, (forall i, (i < n)%nat -> l <> d i) -> upto n f m l = m l).
Proof.
  intros Hd Hf.
  apply (upto_inv (fun k m' => (forall i, (i < k)%nat -> m' (d i) = v i) /\
              (forall l, (forall i, (i < k)%nat -> l <> d i) -> m' l = m l)) n f m).
  - split; [intros; lia|auto].
  - intros i s Hi [H1 H2]. rewrite (Hf i s Hi H2). split.
    + intros k Hk. destruct (Nat.eq_dec k i) as [->|N]; [apply hset_same|].
      rewrite hset_other. { apply H1. lia. }
      intro E. apply N. apply Hd; auto; lia.
    + intros l Hl. rewrite hset_other by (apply Hl; lia). apply H2. intros k Hk. apply Hl. lia.
Qed.

(** The same for a double loop, column by column. *)
Lemma upto2_scatter (d : nat -> nat -> loc) (v : nat -> nat -> K) M N f m :
  (forall i j i' j', (i < M)%nat -> (j < N)%nat -> (i' < M)%nat -> (j' < N)%nat ->
     d i j = d i' j' -> i = i' /\ j = j') ->
  (forall i j m', (i < M)%nat -> (j < N)%nat ->
     (forall l, (forall i' j', (i' < M)%nat -> ((j' < j)%nat \/ (j' = j /\ (i' < i)%nat)) -> l <> d i' j') -> m' l = m l) ->
     f j i m' = hset m' (d i j) (v i j)) ->
  let m2 := upto N (fun j => upto M (f j)) m in
  (forall i j, (i < M)%nat -> (j < N)%nat -> m2 (d i j) = v i j) /\
  (forall l, (forall i j, (i < M)%nat -> (j < N)%nat -> l <> d i j) -> m2 l = m l).
Proof.
  intros Hd Hf m2. unfold m2.
  apply (upto_inv (fun k m' => (forall i j, (i < M)%nat -> (j < k)%nat -> m' (d i j) = v i j) /\
     (forall l, (forall i j, (i < M)%nat -> (j < k)%nat -> l <> d i j) -> m' l = m l))).
  - split; [intros; lia|auto].
  - intros j s Hj [H1 H2].
    destruct (upto_scatter (fun i => d i j) (fun i => v i j) M (f j) s) as [A B].
    + intros i i' Hi Hi' E. apply (Hd i j i' j); auto.
    + intros i m' Hi Hm'. apply Hf; auto. intros l Hl.
      rewrite Hm', H2; auto. intros k Hk. apply Hl; [lia|auto].
    + split.
      * intros i j' Hi Hj'. destruct (Nat.eq_dec j' j) as [->|Ne]; [apply A; auto|].
        rewrite B. { apply H1; auto; lia. }
        intros i' Hi' E. apply Ne. apply (Hd i j' i' j); auto; lia.
      * intros l Hl. rewrite B. { apply H2. intros i j' Hi Hj'. apply Hl; auto; lia. }
        intros i Hi. apply Hl; auto. lia.
Qed.

Lemma sum_ext n (f g : nat -> K) : (forall k, (k < n)%nat -> f k = g k) -> sum n f = sum n g.
Proof.
  induction n as [|n IH]; intro H; cbn [sum]; [reflexivity|].
  rewrite IH by (intros; apply H; lia). rewrite H by lia. reflexivity.
Qed.
End Loops.
