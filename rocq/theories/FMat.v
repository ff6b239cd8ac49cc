(** Matrices and vectors as index functions, and the loops of the numerical
    code.  A matrix variable of the program (a view, whatever its steps) is
    modelled by the function giving its element (i,j); entries outside the
    declared size are other memory, and every specification says that they are
    left alone.  Conjugated views are modelled by the values they show. *)
From Verif Require Import Base.
From mathcomp Require Import all_ssreflect all_fingroup all_algebra zify.
Set Implicit Arguments. Unset Strict Implicit. Unset Printing Implicit Defensive.
Import GRing.Theory.
Local Open Scope ring_scope.

Definition fm (F : Type) := nat -> nat -> F.
Definition fv (F : Type) := nat -> F.

Section Store.
Variable F : Type.
Definition updv (v : fv F) (i : nat) (x : F) : fv F := fun k => if k == i then x else v k.
Definition updm (A : fm F) (i j : nat) (x : F) : fm F :=
  fun r c => if (r == i) && (c == j) then x else A r c.

(** The sub-view of A starting at (i0,j0); writing an m x n sub-view back. *)
Definition subm (i0 j0 : nat) (A : fm F) : fm F := fun i j => A (i0 + i)%N (j0 + j)%N.
Definition putm (i0 j0 m n : nat) (A S : fm F) : fm F :=
  fun i j => if (i0 <= i < i0 + m)%N && (j0 <= j < j0 + n)%N then S (i - i0)%N (j - j0)%N else A i j.
Definition subv (i0 : nat) (v : fv F) : fv F := fun i => v (i0 + i)%N.
Definition putv (i0 n : nat) (v s : fv F) : fv F :=
  fun i => if (i0 <= i < i0 + n)%N then s (i - i0)%N else v i.
Definition trm (A : fm F) : fm F := fun i j => A j i.
Definition setcol (c n : nat) (A : fm F) (v : fv F) : fm F :=
  fun i j => if (j == c) && (i < n)%N then v i else A i j.
End Store.

(** for (i in s) body, where the body may throw. *)
Fixpoint loop {S : Type} (s : seq nat) (f : nat -> S -> outcome S) (x : S) : outcome S :=
  match s with
  | [::] => Ok x
  | i :: s' => bindO (f i x) (loop s' f)
  end.

(** for (i = 0; i < n; ++i) and for (i = n-1; i >= 0; --i). *)
Definition up (n : nat) : seq nat := iota 0 n.
Definition down (n : nat) : seq nat := rev (iota 0 n).

Definition post {S : Type} (I : S -> Prop) (X : exn -> Prop) (o : outcome S) : Prop :=
  match o with Ok x => I x | Throw e => X e | UB => False end.

Lemma post_bind S T (f : S -> outcome T) (o : outcome S) I X :
  post (fun x => post I X (f x)) X o -> post I X (bindO o f).
Proof. by case: o. Qed.

Lemma post_imp S (I J : S -> Prop) (X Y : exn -> Prop) o :
  (forall x, I x -> J x) -> (forall e, X e -> Y e) -> post I X o -> post J Y o.
Proof. by move=> h1 h2; case: o => [x|e|] //= h; [apply: h1 | apply: h2]. Qed.

Lemma loop_cat S (f : nat -> S -> outcome S) s1 s2 x :
  loop (s1 ++ s2) f x = bindO (loop s1 f x) (loop s2 f).
Proof. by elim: s1 x => [//|i s IH] x /=; case: (f i x) => //= y; rewrite IH. Qed.

Lemma loop_iota_inv S (I : nat -> S -> Prop) (X : exn -> Prop) f lo n (x : S) :
  I lo x ->
  (forall i x, (lo <= i < lo + n)%N -> I i x -> post (I i.+1) X (f i x)) ->
  post (I (lo + n)%N) X (loop (iota lo n) f x).
Proof.
  elim: n lo x => [|n IH] lo x H Hs /=; first by rewrite addn0.
  have h := Hs lo x; have {h} : post (I lo.+1) X (f lo x) by apply: h => //; lia.
  case: (f lo x) => //= y Hy; rewrite -addSnnS; apply: IH => // i z Hi; apply: Hs; lia.
Qed.

Lemma loop_up_inv S (I : nat -> S -> Prop) (X : exn -> Prop) f n (x : S) :
  I 0%N x -> (forall i x, (i < n)%N -> I i x -> post (I i.+1) X (f i x)) ->
  post (I n) X (loop (up n) f x).
Proof. by move=> H0 Hs; apply: (@loop_iota_inv _ I X f 0 n x) => // i y Hi; apply: Hs; lia. Qed.

Lemma loop_down_inv S (I : nat -> S -> Prop) (X : exn -> Prop) f n (x : S) :
  I n x -> (forall i x, (i < n)%N -> I i.+1 x -> post (I i) X (f i x)) ->
  post (I 0%N) X (loop (down n) f x).
Proof.
  rewrite /down; elim: n x => [//|n IH] x H Hs.
  rewrite -addn1 iotaD rev_cat /= add0n.
  have := Hs n x (ltnSn n) H.
  case: (f n x) => //= y Hy; apply: IH => // i z Hi; apply: Hs; lia.
Qed.

Lemma loop_ok S (f : nat -> S -> S) s (x : S) :
  loop s (fun i y => Ok (f i y)) x = Ok (foldl (fun y i => f i y) x s).
Proof. by elim: s x => [//|i s IH] x /=. Qed.

(** Loops that cannot throw. *)
Lemma fold_iota_inv S (I : nat -> S -> Prop) (f : S -> nat -> S) lo n (x : S) :
  I lo x -> (forall i x, (lo <= i < lo + n)%N -> I i x -> I i.+1 (f x i)) ->
  I (lo + n)%N (foldl f x (iota lo n)).
Proof.
  elim: n lo x => [|n IH] lo x H Hs /=; first by rewrite addn0.
  rewrite -addSnnS; apply: IH => [|i z Hi]; apply: Hs => //; lia.
Qed.

Lemma fold_down_inv S (I : nat -> S -> Prop) (f : S -> nat -> S) n (x : S) :
  I n x -> (forall i x, (i < n)%N -> I i.+1 x -> I i (f x i)) ->
  I 0%N (foldl f x (down n)).
Proof.
  rewrite /down; elim: n x => [//|n IH] x H Hs.
  rewrite -addn1 iotaD rev_cat /= add0n.
  apply: IH => [|i z Hi]; apply: Hs => //; lia.
Qed.

(** Inner products accumulated in place:
    for (j) b[i] -= b[j] * a(j). *)
Section Ring.
Variable R : ringType.

Lemma fold_dot (b : fv R) (a : nat -> R) i lo n :
  ~~ (lo <= i < lo + n)%N ->
  forall k, foldl (fun b j => updv b i (b i - b j * a j)) b (iota lo n) k =
    (if k == i then b i - \sum_(lo <= j < lo + n) b j * a j else b k).
Proof.
  move=> Hi.
  apply: (@fold_iota_inv _ (fun m c => forall k, c k =
    (if k == i then b i - \sum_(lo <= j < m) b j * a j else b k))).
  - by move=> k; rewrite big_geq // subr0; case: eqP => [->|].
  - move=> j c Hj Hc k; rewrite /updv; case: (k =P i) => [Ek|Nk]; last by rewrite Hc; case: eqP Nk.
    rewrite (Hc i) eqxx (Hc j) ifN; last by lia.
    rewrite big_nat_recr /=; last by lia.
    by rewrite opprD addrA.
Qed.

(** for (i) b[i] -= x * a(i), where x is not touched. *)
Lemma fold_axpy (b : fv R) (a : nat -> R) j lo n :
  ~~ (lo <= j < lo + n)%N ->
  forall k, foldl (fun b i => updv b i (b i - b j * a i)) b (iota lo n) k =
    (if (lo <= k < lo + n)%N then b k - b j * a k else b k).
Proof.
  move=> Hj.
  apply: (@fold_iota_inv _ (fun m c => forall k, c k =
    (if (lo <= k < m)%N then b k - b j * a k else b k))).
  - by move=> k; case: ifP => // h; lia.
  - move=> i c Hi Hc k; rewrite /updv; case: (k =P i) => [Ek|Nk].
    + rewrite (Hc i) (Hc j) ifN; last by lia. rewrite ifN; last by lia.
      by subst k; rewrite ifT //; lia.
    + rewrite Hc. have -> : (lo <= k < i.+1)%N = (lo <= k < i)%N by lia. by [].
Qed.
End Ring.
