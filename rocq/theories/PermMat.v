(** Row and column permutations of a matrix: MatrixView::permuteRows and
    friends (src/TMV_Matrix.cpp, include/tmv/TMV_Matrix.h) and the matrix
    members of Permutation. *)
From Coq Require Import List Arith Lia Bool ZArith.
From Verif Require Import Base Perm PermSpec PermProofs.
Import ListNotations.

(** The elements of a matrix as seen through a MatrixView; the sizes M
    (colsize()) and N (rowsize()) are passed separately.  Storage order is
    abstracted: Matrix views are modelled at the address level in MatView.v. *)
Definition mat (A : Type) := nat -> nat -> A.

Definition mset {A} (m : mat A) (i j : nat) (x : A) : mat A :=
  fun i' j' => if (i' =? i) && (j' =? j) then x else m i' j'.

(** Swap(row(i1),row(i2)) on columns j1..j2-1: the loop of DoSwap(v1,v2),
    src/TMV_Vector.cpp:1400-1425, one TMV_SWAP per column. *)
Definition swap_rows_loop {A} (j1 j2 i1 i2 : nat) (m : mat A) : outcome (mat A) :=
  for_up (j2 - j1) j1
    (fun j s => Ok (mset (mset s i1 j (s i2 j)) i2 j (s i1 j))) m.

(** colRange(j1,j2).swapRows(i1,i2), TMV_Matrix.h:1559-1565.  A row index or
    column range outside the matrix is an out-of-bounds access. *)
Definition swap_rows {A} (M N j1 j2 i1 i2 : nat) (m : mat A) : outcome (mat A) :=
  if (j1 <=? j2) && (j2 <=? N) && (i1 <? M) && (i2 <? M) then
    if i1 =? i2 then Ok m else swap_rows_loop j1 j2 i1 i2 m
  else UB.

(** One block of columns, src/TMV_Matrix.cpp:882-886 and 891-895. *)
Definition permute_block {A} M N (p : list nat) i1 i2 j1 j2 (m : mat A) :=
  for_up (i2 - i1) i1
    (fun i s => do pi <- rd p i; swap_rows M N j1 j2 i pi s) m.

(** src/TMV_Matrix.cpp:912-917 and 922-927. *)
Definition reverse_permute_block {A} M N (p : list nat) i1 i2 j1 j2 (m : mat A) :=
  for_down (i2 - i1) i1
    (fun i s => do pi <- rd p i; swap_rows M N j1 j2 i pi s) m.

(** for(j=0;j<Nx;) { j2 = j+b; body; j = j2; }, src/TMV_Matrix.cpp:880-888.
    The fuel Nx suffices because b >= 1 in every build considered; if it runs
    out the loop has not terminated, modelled as [UB]. *)
Fixpoint block_loop {A} (fuel b nx j : nat) (body : nat -> nat -> mat A -> outcome (mat A))
  (m : mat A) : outcome (mat A) :=
  if j <? nx then
    match fuel with
    | 0 => UB
    | S fuel' => do m' <- body j (j + b) m; block_loop fuel' b nx (j + b) body m'
    end
  else Ok m.

(** PERM_BLOCKSIZE, src/TMV_Matrix.cpp:42-46: 32, or, when the build defines
    TMV_BLOCKSIZE, the UNPARENTHESISED text TMV_BLOCKSIZE/2. *)
Definition perm_step (bs : option nat) : nat :=
  match bs with None => 32 | Some b => b / 2 end.

(** N/PERM_BLOCKSIZE*PERM_BLOCKSIZE, src/TMV_Matrix.cpp:878, after macro
    expansion. *)
Definition perm_nx (bs : option nat) (n : nat) : nat :=
  match bs with None => n / 32 * 32 | Some b => n / b / 2 * b / 2 end.

Definition blocked {A} (bs : option nat) (N : nat)
  (body : nat -> nat -> mat A -> outcome (mat A)) (m : mat A) : outcome (mat A) :=
  let nx := perm_nx bs N in
  do m1 <- block_loop nx (perm_step bs) nx 0 body m;
  if nx =? N then Ok m1 else body nx N m1.

(** MatrixView::permuteRows(p,i1,i2), src/TMV_Matrix.cpp:865-898. *)
Definition permute_rows {A} bs M N p i1 i2 (m : mat A) : outcome (mat A) :=
  blocked bs N (permute_block M N p i1 i2) m.

(** MatrixView::reversePermuteRows(p,i1,i2), src/TMV_Matrix.cpp:900-930. *)
Definition reverse_permute_rows {A} bs M N p i1 i2 (m : mat A) : outcome (mat A) :=
  blocked bs N (reverse_permute_block M N p i1 i2) m.

Definition mtrans {A} (m : mat A) : mat A := fun i j => m j i.

(** permuteCols / reversePermuteCols, TMV_Matrix.h:1580-1595. *)
Definition permute_cols {A} bs M N p j1 j2 (m : mat A) : outcome (mat A) :=
  do t <- permute_rows bs N M p j1 j2 (mtrans m); Ok (mtrans t).
Definition reverse_permute_cols {A} bs M N p j1 j2 (m : mat A) : outcome (mat A) :=
  do t <- reverse_permute_rows bs N M p j1 j2 (mtrans m); Ok (mtrans t).

(** Permutation::applyOnLeft / applyOnRight, TMV_Permutation.h:443-455.  These
    implement p*m and m*p (TMV_PermutationArith.h:103-177) after m0=m. *)
Definition perm_apply_left {A} bs (p : permutation) M N (m : mat A) :=
  if pinv p then reverse_permute_rows bs M N (pvals p) 0 M m
  else permute_rows bs M N (pvals p) 0 M m.
Definition perm_apply_matright {A} bs (p : permutation) M N (m : mat A) :=
  if pinv p then permute_cols bs M N (pvals p) 0 N m
  else reverse_permute_cols bs M N (pvals p) 0 N m.

(** ** Proofs *)

Lemma swap_rows_loop_ok {A} j1 j2 i1 i2 (m : mat A) :
  j1 <= j2 -> i1 <> i2 ->
  exists m', swap_rows_loop j1 j2 i1 i2 m = Ok m' /\
    forall i j, m' i j = if (j1 <=? j) && (j <? j2) then m (tr i1 i2 i) j else m i j.
Proof.
  intros Hj Hi. unfold swap_rows_loop.
  destruct (for_up_inv (fun jj (s : mat A) => forall i j, s i j =
      if (j1 <=? j) && (j <? jj) then m (tr i1 i2 i) j else m i j) (j2 - j1) j1
      (fun j s => Ok (mset (mset s i1 j (s i2 j)) i2 j (s i1 j))) m) as [m' [E H]].
  - intros i j. destruct (Nat.leb_spec j1 j), (Nat.ltb_spec j j1); auto; lia.
  - intros jj s Hjj Hs. eexists. split; [reflexivity|].
    intros i j. unfold mset.
    destruct (Nat.eqb_spec j jj) as [->|Hne].
    + rewrite !Hs.
      destruct (Nat.leb_spec j1 jj), (Nat.ltb_spec jj jj), (Nat.ltb_spec jj (jj + 1)); try lia.
      simpl. rewrite !andb_true_r. tr_cases; auto; congruence.
    + rewrite !andb_false_r. rewrite Hs.
      destruct (Nat.leb_spec j1 j), (Nat.ltb_spec j jj), (Nat.ltb_spec j (jj+1)); auto; lia.
  - exists m'. split; [exact E|]. intros i j. rewrite H.
    replace (j1 + (j2 - j1)) with j2 by lia. reflexivity.
Qed.

Lemma swap_rows_ok {A} M N j1 j2 i1 i2 (m : mat A) :
  j1 <= j2 <= N -> i1 < M -> i2 < M ->
  exists m', swap_rows M N j1 j2 i1 i2 m = Ok m' /\
    forall i j, m' i j = if (j1 <=? j) && (j <? j2) then m (tr i1 i2 i) j else m i j.
Proof.
  intros Hj H1 H2. unfold swap_rows.
  rewrite (proj2 (Nat.leb_le j1 j2)), (proj2 (Nat.leb_le j2 N)),
    (proj2 (Nat.ltb_lt i1 M)), (proj2 (Nat.ltb_lt i2 M)) by lia. simpl.
  destruct (Nat.eqb_spec i1 i2) as [->|Hne].
  - exists m. split; [reflexivity|]. intros. rewrite tr_same. destruct (_ && _); auto.
  - apply swap_rows_loop_ok; auto; lia.
Qed.

Definition okp (p : list nat) (i1 i2 M : nat) :=
  forall t, i1 <= t < i2 -> exists x, nth_error p t = Some x /\ x < M.

Lemma permute_block_ok {A} M N p i1 i2 j1 j2 (m : mat A) :
  j1 <= j2 <= N -> i1 <= i2 <= M -> okp p i1 i2 M ->
  exists m', permute_block M N p i1 i2 j1 j2 m = Ok m' /\
    forall i j, m' i j = if (j1 <=? j) && (j <? j2)
                         then m (downr (pfun p) i1 (i2 - i1) i) j else m i j.
Proof.
  intros Hj Hi Hp. unfold permute_block.
  destruct (for_up_inv (fun ii (s : mat A) => forall i j, s i j =
      if (j1 <=? j) && (j <? j2) then m (downr (pfun p) i1 (ii - i1) i) j else m i j)
      (i2 - i1) i1 (fun i s => do pi <- rd p i; swap_rows M N j1 j2 i pi s) m) as [m' [E H]].
  - intros i j. rewrite Nat.sub_diag. simpl. destruct (_ && _); auto.
  - intros ii s Hii Hs. destruct (Hp ii) as [x [Hx Hxm]]; [lia|].
    unfold rd. rewrite Hx. cbn [bindO].
    destruct (swap_rows_ok M N j1 j2 ii x s) as [s' [E' Hs']]; [lia|lia|lia|].
    exists s'. split; [exact E'|]. intros i j. rewrite Hs'.
    replace (ii + 1 - i1) with (S (ii - i1)) by lia. cbn [downr].
    replace (i1 + (ii - i1)) with ii by lia.
    rewrite (nth_error_pfun _ _ _ Hx). rewrite Hs. rewrite Hs.
    destruct (_ && _); auto.
  - exists m'. split; [exact E|]. intros. rewrite H.
    replace (i1 + (i2 - i1) - i1) with (i2 - i1) by lia. reflexivity.
Qed.

Lemma upr_S pf lo n k :
  upr pf lo (S n) k = upr pf (S lo) n (tr lo (pf lo) k).
Proof.
  revert k. induction n; intros k.
  - simpl. rewrite Nat.add_0_r. reflexivity.
  - change (upr pf lo (S (S n)) k)
      with (tr (lo + S n) (pf (lo + S n)) (upr pf lo (S n) k)).
    rewrite IHn. cbn [upr]. replace (lo + S n) with (S lo + n) by lia. reflexivity.
Qed.

Lemma reverse_permute_block_ok {A} M N p i1 i2 j1 j2 (m : mat A) :
  j1 <= j2 <= N -> i1 <= i2 <= M -> okp p i1 i2 M ->
  exists m', reverse_permute_block M N p i1 i2 j1 j2 m = Ok m' /\
    forall i j, m' i j = if (j1 <=? j) && (j <? j2)
                         then m (upr (pfun p) i1 (i2 - i1) i) j else m i j.
Proof.
  intros Hj Hi Hp. unfold reverse_permute_block.
  destruct (for_down_inv (fun ii (s : mat A) => i1 <= ii <= i2 /\ forall i j, s i j =
      if (j1 <=? j) && (j <? j2) then m (upr (pfun p) ii (i2 - ii) i) j else m i j)
      (i2 - i1) i1 (fun i s => do pi <- rd p i; swap_rows M N j1 j2 i pi s) m) as [m' [E [_ H]]].
  - split; [lia|].
    intros i j. replace (i2 - (i1 + (i2 - i1))) with 0 by lia. simpl. destruct (_ && _); auto.
  - intros ii s Hii [_ Hs]. destruct (Hp ii) as [x [Hx Hxm]]; [lia|].
    unfold rd. rewrite Hx. cbn [bindO].
    destruct (swap_rows_ok M N j1 j2 ii x s) as [s' [E' Hs']]; [lia|lia|lia|].
    exists s'. split; [exact E'|]. split; [lia|]. intros i j. rewrite Hs'.
    replace (i2 - ii) with (S (i2 - (ii + 1))) by lia. rewrite upr_S.
    replace (S ii) with (ii + 1) by lia.
    rewrite (nth_error_pfun _ _ _ Hx). rewrite Hs. rewrite Hs.
    destruct (_ && _); auto.
  - exists m'. split; [exact E|]. exact H.
Qed.

(** The blocks cover each column exactly once. *)
Definition good_bs (bs : option nat) : Prop :=
  match bs with None => True | Some b => b mod 2 = 0 /\ 0 < b end.

Lemma perm_nx_ok bs n : good_bs bs ->
  0 < perm_step bs /\ perm_nx bs n <= n /\ exists k, perm_nx bs n = k * perm_step bs.
Proof.
  destruct bs as [b|]; cbn [good_bs perm_step perm_nx].
  - intros [H0 Hb].
    assert (Hb2 : exists c, b = 2 * c) by (exists (b / 2); pose proof (Nat.div_mod b 2); lia).
    destruct Hb2 as [c ->].
    assert (E : 2 * c / 2 = c) by (rewrite Nat.mul_comm; apply Nat.div_mul; lia).
    rewrite E.
    set (k := n / (2 * c) / 2).
    replace (k * (2 * c) / 2) with (k * c)
      by (replace (k * (2 * c)) with (k * c * 2) by lia; rewrite Nat.div_mul; lia).
    split; [lia|]. split; [|exists k; reflexivity].
    assert (k <= n / (2 * c)) by (apply Nat.div_le_upper_bound; lia).
    pose proof (Nat.mul_div_le n (2 * c)). nia.
  - intros _. split; [lia|]. split.
    + pose proof (Nat.mul_div_le n 32). lia.
    + exists (n / 32). reflexivity.
Qed.

Lemma block_loop_ok {A} b nx N (body : nat -> nat -> mat A -> outcome (mat A)) (g : nat -> nat)
  (m : mat A) :
  0 < b -> nx <= N ->
  (forall j1 j2 s, j1 <= j2 <= N -> exists s', body j1 j2 s = Ok s' /\
      forall i j, s' i j = if (j1 <=? j) && (j <? j2) then s (g i) j else s i j) ->
  forall fuel k jj s, nx = jj + k * b -> k <= fuel ->
  (forall i j, s i j = if j <? jj then m (g i) j else m i j) ->
  exists m', block_loop fuel b nx jj body s = Ok m' /\
    forall i j, m' i j = if j <? nx then m (g i) j else m i j.
Proof.
  intros Hb Hn Hbody. induction fuel as [|fuel IH]; intros k jj s Hk Hf Hs.
  - assert (k = 0) by lia. subst k. cbn [block_loop].
    assert (E : jj = nx) by lia. rewrite E in *.
    rewrite Nat.ltb_irrefl. exists s. auto.
  - cbn [block_loop]. destruct (Nat.ltb_spec jj nx) as [Hlt|Hge].
    + destruct k as [|k]; [lia|].
      destruct (Hbody jj (jj + b) s) as [s' [E' Hs']]; [nia|].
      rewrite E'. cbn [bindO].
      apply (IH k); [lia|lia|].
      intros i j. rewrite Hs', !Hs.
      destruct (Nat.leb_spec jj j), (Nat.ltb_spec j (jj + b)), (Nat.ltb_spec j jj); auto; lia.
    + assert (E : jj = nx) by nia. exists s. split; [reflexivity|]. rewrite <- E. auto.
Qed.

Lemma blocked_ok {A} bs N (body : nat -> nat -> mat A -> outcome (mat A)) (g : nat -> nat) (m : mat A) :
  good_bs bs ->
  (forall j1 j2 s, j1 <= j2 <= N -> exists s', body j1 j2 s = Ok s' /\
      forall i j, s' i j = if (j1 <=? j) && (j <? j2) then s (g i) j else s i j) ->
  exists m', blocked bs N body m = Ok m' /\
    forall i j, m' i j = if j <? N then m (g i) j else m i j.
Proof.
  intros Hbs Hbody. unfold blocked.
  destruct (perm_nx_ok bs N Hbs) as [Hst [Hle [k Hk]]].
  destruct (block_loop_ok (perm_step bs) (perm_nx bs N) N body g m Hst Hle Hbody
              (perm_nx bs N) k 0 m) as [m1 [E1 H1]].
  - lia.
  - nia.
  - intros i j. reflexivity.
  - rewrite E1. cbn [bindO].
    destruct (Nat.eqb_spec (perm_nx bs N) N) as [E|Hne].
    + exists m1. split; [reflexivity|]. rewrite E in H1. exact H1.
    + destruct (Hbody (perm_nx bs N) N m1) as [m2 [E2 H2]]; [lia|].
      exists m2. split; [exact E2|]. intros i j. rewrite H2, !H1.
      destruct (Nat.leb_spec (perm_nx bs N) j), (Nat.ltb_spec j N),
        (Nat.ltb_spec j (perm_nx bs N)); auto; lia.
Qed.

Lemma permute_rows_ok {A} bs M N p i1 i2 (m : mat A) :
  good_bs bs -> i1 <= i2 <= M -> okp p i1 i2 M ->
  exists m', permute_rows bs M N p i1 i2 m = Ok m' /\
    forall i j, m' i j = if j <? N then m (downr (pfun p) i1 (i2 - i1) i) j else m i j.
Proof.
  intros Hbs Hi Hp. apply blocked_ok; auto.
  intros. apply permute_block_ok; auto.
Qed.

Lemma reverse_permute_rows_ok {A} bs M N p i1 i2 (m : mat A) :
  good_bs bs -> i1 <= i2 <= M -> okp p i1 i2 M ->
  exists m', reverse_permute_rows bs M N p i1 i2 m = Ok m' /\
    forall i j, m' i j = if j <? N then m (upr (pfun p) i1 (i2 - i1) i) j else m i j.
Proof.
  intros Hbs Hi Hp. apply blocked_ok; auto.
  intros. apply reverse_permute_block_ok; auto.
Qed.

Lemma in_range_okp p : in_range p -> okp (pvals p) 0 (psize p) (psize p).
Proof. intros H t Ht. apply H. lia. Qed.

Lemma perm_apply_left_ok {A} bs p N (m : mat A) :
  good_bs bs -> in_range p ->
  exists m', perm_apply_left bs p (psize p) N m = Ok m' /\
    forall i j, m' i j = if j <? N then m (src p i) j else m i j.
Proof.
  intros Hbs H. unfold perm_apply_left, src. destruct (pinv p).
  - destruct (reverse_permute_rows_ok bs (psize p) N (pvals p) 0 (psize p) m) as [m' [E Hm]];
      auto; [lia|apply in_range_okp; auto|].
    exists m'. split; [exact E|]. intros. rewrite Hm, Nat.sub_0_r, upr0. reflexivity.
  - destruct (permute_rows_ok bs (psize p) N (pvals p) 0 (psize p) m) as [m' [E Hm]];
      auto; [lia|apply in_range_okp; auto|].
    exists m'. split; [exact E|]. intros. rewrite Hm, Nat.sub_0_r, downr0. reflexivity.
Qed.

Lemma perm_apply_matright_ok {A} bs p M (m : mat A) :
  good_bs bs -> in_range p ->
  exists m', perm_apply_matright bs p M (psize p) m = Ok m' /\
    forall i j, m' i j = if i <? M then m i (src (perm_inverse p) j) else m i j.
Proof.
  intros Hbs H. unfold perm_apply_matright, permute_cols, reverse_permute_cols, src, perm_inverse.
  simpl. destruct (pinv p); simpl.
  - destruct (permute_rows_ok bs (psize p) M (pvals p) 0 (psize p) (mtrans m)) as [m' [E Hm]];
      auto; [lia|apply in_range_okp; auto|].
    rewrite E. cbn [bindO]. eexists. split; [reflexivity|].
    intros. unfold mtrans at 1. rewrite Hm, Nat.sub_0_r, downr0. reflexivity.
  - destruct (reverse_permute_rows_ok bs (psize p) M (pvals p) 0 (psize p) (mtrans m)) as [m' [E Hm]];
      auto; [lia|apply in_range_okp; auto|].
    rewrite E. cbn [bindO]. eexists. split; [reflexivity|].
    intros. unfold mtrans at 1. rewrite Hm, Nat.sub_0_r, upr0. reflexivity.
Qed.

(** Columns as lists. *)
Definition column {A} (M : nat) (m : mat A) (j : nat) : list A := map (fun i => m i j) (seq 0 M).
Definition rowlist {A} (N : nat) (m : mat A) (i : nat) : list A := map (fun j => m i j) (seq 0 N).

Lemma column_length {A} M (m : mat A) j : length (column M m j) = M.
Proof. unfold column. rewrite map_length, seq_length. reflexivity. Qed.

Lemma nth_column {A} M (m : mat A) j k : k < M -> nth_error (column M m j) k = Some (m k j).
Proof.
  intro H. unfold column. rewrite nth_error_map, nth_error_seq by auto. reflexivity.
Qed.

Lemma rowlist_column {A} N (m : mat A) i : rowlist N m i = column N (mtrans m) i.
Proof. reflexivity. Qed.

Lemma downr_lt pf lo n N k :
  lo + n <= N -> (forall t, lo <= t < lo + n -> pf t < N) -> k < N -> downr pf lo n k < N.
Proof.
  revert k. induction n; simpl; intros k Hn H Hk; auto.
  apply IHn; [lia|intros; apply H; lia|].
  apply tr_lt; [lia|apply H; lia|lia].
Qed.
Lemma upr_lt pf lo n N k :
  lo + n <= N -> (forall t, lo <= t < lo + n -> pf t < N) -> k < N -> upr pf lo n k < N.
Proof.
  intros Hn H Hk. induction n; simpl; auto.
  apply tr_lt; [lia|apply H; lia|]. apply IHn; [lia|intros; apply H; lia].
Qed.

Lemma okp_pfun p i1 i2 M : okp p i1 i2 M -> forall t, i1 <= t < i2 -> pfun p t < M.
Proof.
  intros H t Ht. destruct (H t Ht) as [x [Hx ?]]. rewrite (nth_error_pfun _ _ _ Hx). auto.
Qed.

(** permuteRows acts on every column as Vector::permute does. *)
Lemma permute_rows_columns {A} bs M N p i1 i2 (m : mat A) :
  good_bs bs -> i1 <= i2 <= M -> okp p i1 i2 M ->
  exists m', permute_rows bs M N p i1 i2 m = Ok m' /\
    (forall j, j < N -> do_permute p i1 i2 (column M m j) = Ok (column M m' j)) /\
    (forall i j, N <= j -> m' i j = m i j).
Proof.
  intros Hbs Hi Hp. destruct (permute_rows_ok bs M N p i1 i2 m Hbs Hi Hp) as [m' [E H]].
  exists m'. split; [exact E|]. split.
  - intros j Hj. unfold do_permute.
    destruct (permute_loop p (i2 - i1) i1 (column M m j)) as [w [Ew [Lw Nw]]].
    + rewrite column_length. lia.
    + intros t Ht. rewrite column_length. apply Hp. lia.
    + rewrite Ew. f_equal. apply list_eq_by_nth; [rewrite Lw, !column_length; auto|].
      rewrite Lw, column_length. intros k Hk. rewrite Nw, !nth_column; auto.
      * rewrite H. rewrite (proj2 (Nat.ltb_lt j N)) by auto. reflexivity.
      * apply downr_lt; auto; [lia|]. intros t Ht. eapply okp_pfun; eauto. lia.
  - intros i j Hj. rewrite H. destruct (Nat.ltb_spec j N); auto; lia.
Qed.

Lemma reverse_permute_rows_columns {A} bs M N p i1 i2 (m : mat A) :
  good_bs bs -> i1 <= i2 <= M -> okp p i1 i2 M ->
  exists m', reverse_permute_rows bs M N p i1 i2 m = Ok m' /\
    (forall j, j < N -> do_reverse_permute p i1 i2 (column M m j) = Ok (column M m' j)) /\
    (forall i j, N <= j -> m' i j = m i j).
Proof.
  intros Hbs Hi Hp. destruct (reverse_permute_rows_ok bs M N p i1 i2 m Hbs Hi Hp) as [m' [E H]].
  exists m'. split; [exact E|]. split.
  - intros j Hj. unfold do_reverse_permute.
    destruct (reverse_permute_loop p (i2 - i1) i1 (column M m j)) as [w [Ew [Lw Nw]]].
    + rewrite column_length. lia.
    + intros t Ht. rewrite column_length. apply Hp. lia.
    + rewrite Ew. f_equal. apply list_eq_by_nth; [rewrite Lw, !column_length; auto|].
      rewrite Lw, column_length. intros k Hk. rewrite Nw, !nth_column; auto.
      * rewrite H. rewrite (proj2 (Nat.ltb_lt j N)) by auto. reflexivity.
      * apply upr_lt; auto; [lia|]. intros t Ht. eapply okp_pfun; eauto. lia.
  - intros i j Hj. rewrite H. destruct (Nat.ltb_spec j N); auto; lia.
Qed.
