(** Row swaps and row permutations of matrices given by pivot vectors, on index
    functions: MatrixView::swapRows, permuteRows(p,i1,i2) and
    reversePermuteRows(p,i1,i2) (include/tmv/TMV_Matrix.h:1559-1592, src/TMV_Matrix.cpp:866-932; that the blocked
    code there amounts to these sequences of swaps is C06). *)
From Verif Require Import Base FMat.
From mathcomp Require Import all_ssreflect all_fingroup all_algebra zify.
Set Implicit Arguments. Unset Strict Implicit. Unset Printing Implicit Defensive.
Import GRing.Theory.
Local Open Scope ring_scope.

(** The transposition of a and b. *)
Definition tsw (a b i : nat) : nat := if i == a then b else if i == b then a else i.

Section Model.
Variable F : Type.
Implicit Types (A : fm F).
(** A.swapRows(a,b) on a matrix of N columns. *)
Definition swaprows (N a b : nat) A : fm F :=
  fun i j => if (j < N)%N then A (tsw a b i) j else A i j.
(** A.permuteRows(P,lo,lo+n) and A.reversePermuteRows(P,lo,lo+n). *)
Definition permrows (N : nat) (P : nat -> nat) (lo n : nat) A : fm F :=
  foldl (fun A i => swaprows N i (P i) A) A (iota lo n).
Definition revpermrows (N : nat) (P : nat -> nat) (lo n : nat) A : fm F :=
  foldl (fun A i => swaprows N i (P i) A) A (rev (iota lo n)).
End Model.

(** The row that ends up in row i. *)
Definition psig (P : nat -> nat) (lo n i : nat) : nat := foldr (fun k i => tsw k (P k) i) i (iota lo n).

Lemma tswK a b : involutive (tsw a b).
Proof.
  by move=> i; rewrite /tsw; case: (i =P a) => [->|Na]; [case: (b =P a); rewrite ?eqxx | case: (i =P b); rewrite ?eqxx //; do 2 case: eqP => //].
Qed.

Lemma tsw_same a i : tsw a a i = i.
Proof. by rewrite /tsw; case: eqP => [->|//]. Qed.

Lemma tsw_lt M a b i : (a < M)%N -> (b < M)%N -> (i < M)%N -> (tsw a b i < M)%N.
Proof. by rewrite /tsw => *; case: ifP => // _; case: ifP. Qed.

Lemma tsw_ge lo a b i : (lo <= a)%N -> (lo <= b)%N -> (lo <= i)%N -> (lo <= tsw a b i)%N.
Proof. by rewrite /tsw => *; case: ifP => // _; case: ifP. Qed.

Lemma tsw_out a b i : i != a -> i != b -> tsw a b i = i.
Proof. by rewrite /tsw => /negPf -> /negPf ->. Qed.

Section Lemmas.
Variable F : Type.
Implicit Types (A B : fm F).

Lemma permrowsE N P lo n A i j :
  permrows N P lo n A i j = if (j < N)%N then A (psig P lo n i) j else A i j.
Proof.
  rewrite /permrows /psig; elim: n lo A i => [|n IH] lo A i /=; first by rewrite if_same.
  by rewrite IH /swaprows; case: (j < N)%N.
Qed.

Lemma psig_cat P lo n1 n2 i : psig P lo (n1 + n2) i = psig P lo n1 (psig P (lo + n1) n2 i).
Proof. by rewrite /psig iotaD foldr_cat. Qed.

Lemma psigS P lo n i : psig P lo n.+1 i = psig P lo n (tsw (lo + n) (P (lo + n)%N) i).
Proof. by rewrite -addn1 psig_cat. Qed.

Lemma psig_ext P Q lo n i : (forall k, (lo <= k < lo + n)%N -> P k = Q k) -> psig P lo n i = psig Q lo n i.
Proof.
  rewrite /psig; elim: n lo => [//|n IH] lo H /=.
  rewrite IH; last by move=> k Hk; apply: H; lia.
  by rewrite H //; lia.
Qed.

Lemma psig_lt M P lo n i : (forall k, (lo <= k < lo + n)%N -> (k < M)%N /\ (P k < M)%N) ->
  (i < M)%N -> (psig P lo n i < M)%N.
Proof.
  rewrite /psig; elim: n lo => [//|n IH] lo H Hi /=.
  have [h1 h2] : (lo < M)%N /\ (P lo < M)%N by apply: H; lia.
  apply: tsw_lt => //; apply: IH => // k Hk; apply: H; lia.
Qed.

Lemma psig_ge P lo n i : (forall k, (lo <= k < lo + n)%N -> (k <= P k)%N) ->
  (lo <= i)%N -> (lo <= psig P lo n i)%N.
Proof.
  move=> H Hi; rewrite /psig.
  have: forall m k, (lo <= k)%N -> (k + m <= lo + n)%N -> (lo <= foldr (fun k i => tsw k (P k) i) i (iota k m))%N.
    elim=> [//|m IH] k Hk Hm /=; apply: tsw_ge => //; last by apply: IH; lia.
    by have := H k; lia.
  by apply.
Qed.

Lemma psig_fix P lo n i : (forall k, (lo <= k < lo + n)%N -> (k <= P k)%N) ->
  (i < lo)%N -> psig P lo n i = i.
Proof.
  rewrite /psig; elim: n lo => [//|n IH] lo H Hi /=.
  rewrite IH; try lia; last by move=> k Hk; apply: H; lia.
  have h : (lo <= P lo)%N by apply: H; lia.
  by rewrite tsw_out //; lia.
Qed.

(** Above the range: rows from M on. *)
Lemma psig_out M P lo n i : (forall k, (lo <= k < lo + n)%N -> (k < M)%N /\ (P k < M)%N) ->
  (M <= i)%N -> psig P lo n i = i.
Proof.
  rewrite /psig; elim: n lo => [//|n IH] lo H Hi /=.
  have [h1 h2] : (lo < M)%N /\ (P lo < M)%N by apply: H; lia.
  rewrite IH //; last by move=> k Hk; apply: H; lia.
  by rewrite tsw_out //; lia.
Qed.

Lemma psig_shift P Q o lo n i : (forall k, (lo <= k < lo + n)%N -> Q (o + k)%N = (o + P k)%N) ->
  psig Q (o + lo) n (o + i) = (o + psig P lo n i)%N.
Proof.
  rewrite /psig; elim: n lo => [//|n IH] lo H /=.
  rewrite -addnS IH; last by move=> k Hk; apply: H; lia.
  rewrite H; last by lia.
  by rewrite /tsw !eqn_add2l; case: ifP => // _; case: ifP.
Qed.

(** Undoing: reversePermuteRows after permuteRows is the identity, and
    conversely. *)
Lemma swaprowsK N a b A i j : swaprows N a b (swaprows N a b A) i j = A i j.
Proof. by rewrite /swaprows; case: (j < N)%N => //; rewrite tswK. Qed.

Lemma swaprows_ext N a b A B : (forall i j, A i j = B i j) -> forall i j, swaprows N a b A i j = swaprows N a b B i j.
Proof. by move=> H i j; rewrite /swaprows !H. Qed.

Lemma swapsK N P s : forall A i j,
  foldl (fun A i => swaprows N i (P i) A) (foldl (fun A i => swaprows N i (P i) A) A s) (rev s) i j = A i j.
Proof.
  have ext : forall s A B, (forall i j, A i j = B i j) -> forall i j,
    foldl (fun A i => swaprows N i (P i) A) A s i j = foldl (fun A i => swaprows N i (P i) A) B s i j.
    elim=> [//|x s' IH] A B H i j /=; apply: IH => i' j'; exact: swaprows_ext.
  elim: s => [//|x s IH] A i j /=.
  rewrite rev_cons -cats1 foldl_cat /=.
  rewrite (@swaprows_ext N x (P x) _ (swaprows N x (P x) A)); first exact: swaprowsK.
  by move=> i' j'; apply: IH.
Qed.

Lemma permrowsK N P lo n A i j : revpermrows N P lo n (permrows N P lo n A) i j = A i j.
Proof. exact: swapsK. Qed.
Lemma revpermrowsK N P lo n A i j : permrows N P lo n (revpermrows N P lo n A) i j = A i j.
Proof. by rewrite /permrows -[iota lo n in X in foldl _ _ X]revK; apply: swapsK. Qed.

Lemma revpermrows_ext N P lo n A B : (forall i j, (j < N)%N -> A i j = B i j) ->
  forall i j, (j < N)%N -> revpermrows N P lo n A i j = revpermrows N P lo n B i j.
Proof.
  rewrite /revpermrows; elim: (rev _) A B => [//|x s IH] A B H i j Hj /=.
  by apply: IH => // i' j' Hj'; rewrite /swaprows Hj' H.
Qed.
End Lemmas.
