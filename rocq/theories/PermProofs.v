(** Proofs about Perm.v. *)
From Coq Require Import List Arith Lia Bool ZArith Permutation FinFun.
From Verif Require Import Base Perm PermSpec.
Import ListNotations.

(** Transposition of two indices. *)
Definition tr (i j k : nat) : nat :=
  if k =? i then j else if k =? j then i else k.

Ltac tr_cases :=
  unfold tr in *;
  repeat match goal with
  | |- context [?a =? ?b] => destruct (Nat.eqb_spec a b); subst
  | H : context [?a =? ?b] |- _ => destruct (Nat.eqb_spec a b); subst
  end.

Lemma tr_invol i j k : tr i j (tr i j k) = k.
Proof. tr_cases; lia. Qed.

Lemma tr_same i k : tr i i k = k.
Proof. tr_cases; lia. Qed.

Lemma tr_lt n i j k : i < n -> j < n -> k < n -> tr i j k < n.
Proof. tr_cases; lia. Qed.

Lemma tr_inj i j a b : tr i j a = tr i j b -> a = b.
Proof. intro H. rewrite <- (tr_invol i j a), H. apply tr_invol. Qed.

(** Applying interchanges 0,1,..,n-1 (up) or n-1,..,1,0 (down) to an index. *)
Fixpoint up (pf : nat -> nat) (n k : nat) : nat :=
  match n with 0 => k | S m => tr m (pf m) (up pf m k) end.

Fixpoint down (pf : nat -> nat) (n k : nat) : nat :=
  match n with 0 => k | S m => down pf m (tr m (pf m) k) end.

Lemma down_up pf n k : down pf n (up pf n k) = k.
Proof. induction n; simpl; auto. rewrite tr_invol. auto. Qed.

Lemma up_down pf n k : up pf n (down pf n k) = k.
Proof.
  revert k. induction n; simpl; intros k; auto.
  rewrite IHn. apply tr_invol.
Qed.

Lemma up_ext pf qf n k :
  (forall t, t < n -> pf t = qf t) -> up pf n k = up qf n k.
Proof.
  intro H. induction n; simpl; auto.
  rewrite IHn by (intros; apply H; lia). rewrite H by lia. reflexivity.
Qed.

Lemma down_ext pf qf n k :
  (forall t, t < n -> pf t = qf t) -> down pf n k = down qf n k.
Proof.
  revert k. induction n; simpl; intros k H; auto.
  rewrite H by lia. apply IHn. intros; apply H; lia.
Qed.

Lemma up_lt pf n N k :
  n <= N -> (forall t, t < n -> pf t < N) -> k < N -> up pf n k < N.
Proof.
  intros Hn H Hk. induction n; simpl; auto.
  apply tr_lt; [lia|apply H; lia|].
  apply IHn; [lia|intros; apply H; lia].
Qed.

Lemma down_lt pf n N k :
  n <= N -> (forall t, t < n -> pf t < N) -> k < N -> down pf n k < N.
Proof.
  revert k. induction n; simpl; intros k Hn H Hk; auto.
  apply IHn; [lia|intros; apply H; lia|].
  apply tr_lt; [lia|apply H; lia|lia].
Qed.

Definition pfun (p : list nat) (k : nat) : nat := nth k p 0.

Lemma nth_error_pfun p k x : nth_error p k = Some x -> pfun p k = x.
Proof. intro H. unfold pfun. apply nth_error_nth. exact H. Qed.

(** What one swap does, cell by cell. *)
Lemma do_swap_ok {A} i j (l : list A) :
  i < length l -> j < length l ->
  exists l', do_swap i j l = Ok l' /\ length l' = length l /\
             forall k, nth_error l' k = nth_error l (tr i j k).
Proof.
  intros Hi Hj. unfold do_swap.
  destruct (Nat.eqb_spec i j) as [->|Hne].
  - exists l. split; [|split]; auto. intro k. rewrite tr_same. reflexivity.
  - destruct (nth_error_lt l i Hi) as [a Ha].
    destruct (nth_error_lt l j Hj) as [b Hb].
    rewrite Ha, Hb. eexists. split; [reflexivity|]. split.
    + rewrite !upd_length. reflexivity.
    + intro k. rewrite !nth_error_upd, upd_length.
      apply Nat.ltb_lt in Hi, Hj. rewrite Hi, Hj.
      tr_cases; simpl; auto; lia.
Qed.

Lemma do_swap_refl {A} i (l : list A) : do_swap i i l = Ok l.
Proof. unfold do_swap. rewrite Nat.eqb_refl. reflexivity. Qed.

(** Interchanges lo..lo+n-1 for the partial-range loops. *)
Fixpoint upr (pf : nat -> nat) (lo n k : nat) : nat :=
  match n with 0 => k | S m => tr (lo + m) (pf (lo + m)) (upr pf lo m k) end.
Fixpoint downr (pf : nat -> nat) (lo n k : nat) : nat :=
  match n with 0 => k | S m => downr pf lo m (tr (lo + m) (pf (lo + m)) k) end.

Lemma upr0 pf n k : upr pf 0 n k = up pf n k.
Proof. induction n; simpl; congruence. Qed.
Lemma downr0 pf n k : downr pf 0 n k = down pf n k.
Proof. revert k; induction n; simpl; intros; auto. Qed.

Lemma downr_S pf lo n k :
  downr pf lo (S n) k = tr lo (pf lo) (downr pf (S lo) n k).
Proof.
  revert k. induction n; intros k.
  - simpl. rewrite Nat.add_0_r. reflexivity.
  - change (downr pf lo (S (S n)) k)
      with (downr pf lo (S n) (tr (lo + S n) (pf (lo + S n)) k)).
    rewrite IHn. simpl. rewrite <- plus_n_Sm. reflexivity.
Qed.

(** The forward loop: result[k] = old[downr k]. *)
Lemma permute_loop {A} (p : list nat) n lo (l : list A) :
  lo + n <= length l ->
  (forall t, lo <= t < lo + n -> exists x, nth_error p t = Some x /\ x < length l) ->
  exists l', for_up n lo (fun i s => do pi <- rd p i; do_swap i pi s) l = Ok l' /\
             length l' = length l /\
             forall k, nth_error l' k = nth_error l (downr (pfun p) lo n k).
Proof.
  revert lo l. induction n as [|n IH]; intros lo l Hn Hp.
  - exists l. simpl. auto.
  - cbn [for_up].
    destruct (Hp lo) as [x [Hx Hxl]]; [lia|].
    unfold rd at 1. rewrite Hx. cbn [bindO].
    destruct (do_swap_ok lo x l) as [l1 [E1 [L1 N1]]]; [lia|lia|].
    rewrite E1. cbn [bindO].
    destruct (IH (S lo) l1) as [l2 [E2 [L2 N2]]].
    + rewrite L1. lia.
    + intros t Ht. rewrite L1. apply Hp. lia.
    + exists l2. split; [exact E2|]. split; [congruence|].
      intro k. rewrite N2, N1, downr_S.
      rewrite (nth_error_pfun _ _ _ Hx). reflexivity.
Qed.

(** The backward loop: result[k] = old[upr k]. *)
Lemma reverse_permute_loop {A} (p : list nat) n lo (l : list A) :
  lo + n <= length l ->
  (forall t, lo <= t < lo + n -> exists x, nth_error p t = Some x /\ x < length l) ->
  exists l', for_down n lo (fun i s => do pi <- rd p i; do_swap i pi s) l = Ok l' /\
             length l' = length l /\
             forall k, nth_error l' k = nth_error l (upr (pfun p) lo n k).
Proof.
  revert l. induction n as [|n IH]; intros l Hn Hp.
  - exists l. simpl. auto.
  - cbn [for_down].
    destruct (Hp (lo + n)) as [x [Hx Hxl]]; [lia|].
    unfold rd at 1. rewrite Hx. cbn [bindO].
    destruct (do_swap_ok (lo + n) x l) as [l1 [E1 [L1 N1]]]; [lia|lia|].
    rewrite E1. cbn [bindO].
    destruct (IH l1) as [l2 [E2 [L2 N2]]].
    + rewrite L1. lia.
    + intros t Ht. rewrite L1. apply Hp. lia.
    + exists l2. split; [exact E2|]. split; [congruence|].
      intro k. rewrite N2, N1. simpl.
      rewrite (nth_error_pfun _ _ _ Hx). reflexivity.
Qed.

(** The index that position k receives its element from. *)
Definition src (p : permutation) (k : nat) : nat :=
  if pinv p then up (pfun (pvals p)) (psize p) k
  else down (pfun (pvals p)) (psize p) k.

Lemma in_range_pfun p : in_range p -> forall t, t < psize p -> pfun (pvals p) t < psize p.
Proof.
  intros H t Ht. destruct (H t Ht) as [x [Hx Hl]].
  rewrite (nth_error_pfun _ _ _ Hx). exact Hl.
Qed.

Lemma legal_in_range p : legal p -> in_range p.
Proof. intros H k Hk. destruct (H k Hk) as [x [? ?]]. exists x. split; [auto|lia]. Qed.

Lemma legal_pfun p : legal p -> forall t, t < psize p -> t <= pfun (pvals p) t < psize p.
Proof.
  intros H t Ht. destruct (H t Ht) as [x [Hx Hl]].
  rewrite (nth_error_pfun _ _ _ Hx). exact Hl.
Qed.

Lemma src_lt p k : in_range p -> k < psize p -> src p k < psize p.
Proof.
  intros H Hk. unfold src. destruct (pinv p).
  - apply up_lt; auto. apply in_range_pfun; auto.
  - apply down_lt; auto. apply in_range_pfun; auto.
Qed.

Lemma src_inverse p k : src (perm_inverse p) (src p k) = k.
Proof.
  unfold src, perm_inverse. simpl. destruct (pinv p); simpl.
  - apply down_up.
  - apply up_down.
Qed.

Lemma inverse_inverse p : perm_inverse (perm_inverse p) = p.
Proof. destruct p. unfold perm_inverse. simpl. rewrite negb_involutive. reflexivity. Qed.

Lemma src_inverse' p k : src p (src (perm_inverse p) k) = k.
Proof. rewrite <- (inverse_inverse p) at 1. apply src_inverse. Qed.

Lemma src_inj p a b : src p a = src p b -> a = b.
Proof. intro H. rewrite <- (src_inverse p a), H. apply src_inverse. Qed.

Lemma perm_apply_ok {A} (p : permutation) (v : list A) :
  in_range p -> length v = psize p ->
  exists w, perm_apply p v = Ok w /\ length w = length v /\
            forall k, k < psize p -> nth_error w k = nth_error v (src p k).
Proof.
  intros H Hv. unfold perm_apply, do_reverse_permute, do_permute, src.
  rewrite Nat.sub_0_r.
  destruct (pinv p).
  - destruct (reverse_permute_loop (pvals p) (length v) 0 v) as [w [E [L N]]].
    + lia.
    + intros t Ht. rewrite Hv in *. apply H. lia.
    + exists w. split; [exact E|]. split; [exact L|].
      intros k _. rewrite N, upr0, Hv. reflexivity.
  - destruct (permute_loop (pvals p) (length v) 0 v) as [w [E [L N]]].
    + lia.
    + intros t Ht. rewrite Hv in *. apply H. lia.
    + exists w. split; [exact E|]. split; [exact L|].
      intros k _. rewrite N, downr0, Hv. reflexivity.
Qed.

Lemma list_eq_by_nth {A} (a b : list A) :
  length a = length b ->
  (forall k, k < length a -> nth_error a k = nth_error b k) -> a = b.
Proof.
  intros L H. apply nth_error_ext. intro k.
  destruct (lt_dec k (length a)) as [Hk|Hk]; [auto|].
  rewrite (proj2 (nth_error_None a k)) by lia.
  rewrite (proj2 (nth_error_None b k)) by lia. reflexivity.
Qed.

Lemma in_range_inverse p : in_range p -> in_range (perm_inverse p).
Proof. intro H. exact H. Qed.

Lemma legal_inverse p : legal p -> legal (perm_inverse p).
Proof. intro H. exact H. Qed.

Lemma perm_apply_inverse {A} (p : permutation) (v w : list A) :
  in_range p -> length v = psize p ->
  perm_apply p v = Ok w -> perm_apply (perm_inverse p) w = Ok v.
Proof.
  intros H Hv E.
  destruct (perm_apply_ok p v H Hv) as [w' [E' [L N]]].
  rewrite E in E'. injection E' as <-.
  destruct (perm_apply_ok (perm_inverse p) w) as [u [E2 [L2 N2]]].
  - apply in_range_inverse; auto.
  - simpl. congruence.
  - rewrite E2. f_equal. apply list_eq_by_nth; [congruence|].
    intros k Hk. rewrite N2 by (simpl; lia).
    rewrite N.
    + rewrite src_inverse'. reflexivity.
    + assert (X := src_lt (perm_inverse p) k (in_range_inverse p H)).
      simpl in X. apply X. lia.
Qed.

(** Rearrangement: a bijective reindexing is a [Permutation]. *)
Lemma perm_apply_Permutation {A} (p : permutation) (v w : list A) :
  in_range p -> length v = psize p ->
  perm_apply p v = Ok w -> Permutation v w.
Proof.
  intros H Hv E.
  destruct (perm_apply_ok p v H Hv) as [w' [E' [L N]]].
  rewrite E in E'. injection E' as <-.
  apply Permutation_nth_error. split; [congruence|].
  exists (fun k => if k <? psize p then src p k else k). split.
  - intros a b. destruct (Nat.ltb_spec a (psize p)), (Nat.ltb_spec b (psize p)); auto.
    + apply src_inj.
    + intro X. pose proof (src_lt p a H H0). lia.
    + intro X. pose proof (src_lt p b H H1). lia.
  - intro k. destruct (Nat.ltb_spec k (psize p)).
    + apply N; auto.
    + rewrite (proj2 (nth_error_None w k)) by lia.
      rewrite (proj2 (nth_error_None v k)) by lia. reflexivity.
Qed.

(** ** cref *)

(** Running the remaining interchanges k..n-1 on an index. *)
Fixpoint up_from (pf : nat -> nat) (k n t : nat) : nat :=
  match n with 0 => t | S m => up_from pf (S k) m (tr k (pf k) t) end.

Lemma up_from_snoc pf k n t :
  up_from pf k (S n) t = tr (k + n) (pf (k + n)) (up_from pf k n t).
Proof.
  revert k t. induction n; intros k t.
  - simpl. rewrite Nat.add_0_r. reflexivity.
  - change (up_from pf k (S (S n)) t)
      with (up_from pf (S k) (S n) (tr k (pf k) t)).
    rewrite IHn. simpl. rewrite plus_n_Sm. reflexivity.
Qed.

Lemma up_from_0 pf n t : up_from pf 0 n t = up pf n t.
Proof. induction n; auto. rewrite up_from_snoc, IHn. reflexivity. Qed.

Lemma up_from_small pf k n t N :
  k + n <= N -> (forall s, s < N -> s <= pf s) -> t < k -> up_from pf k n t = t.
Proof.
  revert k t. induction n; intros k t Hn H Ht; simpl; auto.
  assert (E : tr k (pf k) t = t).
  { specialize (H k). tr_cases; lia. }
  rewrite E. apply IHn; auto; lia.
Qed.

Lemma up_from_large pf k n t N :
  k + n <= N -> (forall s, s < N -> s <= pf s) -> k <= t -> k <= up_from pf k n t.
Proof.
  intros Hn H Ht. induction n as [|n IH]; auto.
  rewrite up_from_snoc. assert (IH' := IH ltac:(lia)).
  specialize (H (k + n) ltac:(lia)).
  tr_cases; lia.
Qed.

Lemma cref_loop_ok p i n k temp :
  (forall t, t < n -> exists x, nth_error p t = Some x /\ t <= x < n) ->
  i < n -> k <= S i ->
  exists r, cref_loop (S i - k) p k temp = Ok r /\
            (r = i <-> up_from (pfun p) k (n - k) temp = i).
Proof.
  intros Hp Hi. remember (S i - k) as fuel eqn:Ef. revert k temp Ef.
  assert (Hpf : forall s, s < n -> s <= pfun p s).
  { intros s Hs. destruct (Hp s Hs) as [x [E ?]].
    rewrite (nth_error_pfun _ _ _ E). lia. }
  induction fuel as [|fuel IH]; intros k temp Ef Hk.
  - exists temp. split; [reflexivity|].
    assert (k = S i) by lia. subst k.
    split; intro E.
    + rewrite (up_from_small _ _ _ _ n); auto; lia.
    + destruct (le_lt_dec (S i) temp) as [Hge|Hlt].
      * pose proof (up_from_large (pfun p) (S i) (n - S i) temp n ltac:(lia) Hpf Hge). lia.
      * rewrite (up_from_small _ _ _ _ n) in E; auto; lia.
  - cbn [cref_loop].
    destruct (Nat.leb_spec k temp) as [Hkt|Hkt].
    + destruct (Hp k) as [x [Hx Hxb]]; [lia|].
      unfold rd. rewrite Hx. cbn [bindO].
      set (temp' := if x =? k then temp else _).
      destruct (IH (S k) temp') as [r [Er Hr]]; [lia|lia|].
      exists r. split; [exact Er|].
      replace (n - k) with (S (n - S k)) by lia. cbn [up_from].
      rewrite (nth_error_pfun _ _ _ Hx).
      replace (tr k x temp) with temp'; [exact Hr|].
      unfold temp'. tr_cases; lia.
    + exists temp. split; [reflexivity|].
      rewrite (up_from_small _ _ _ _ n); [tauto|lia|auto|lia].
Qed.

(** cref in terms of [src]. *)
Lemma perm_cref_ok p i j :
  legal p -> i < psize p -> j < psize p ->
  perm_cref p i j = Ok (if src p i =? j then 1%Z else 0%Z).
Proof.
  intros H Hi Hj. unfold perm_cref, src.
  destruct (pinv p).
  - destruct (cref_loop_ok (pvals p) j (psize p) 0 i) as [r [Er Hr]]; [exact H|lia|lia|].
    rewrite Nat.sub_0_r in Er. rewrite Er. cbn [bindO].
    rewrite Nat.sub_0_r, up_from_0 in Hr.
    destruct (Nat.eqb_spec r j), (Nat.eqb_spec (up (pfun (pvals p)) (psize p) i) j); auto; tauto.
  - destruct (cref_loop_ok (pvals p) i (psize p) 0 j) as [r [Er Hr]]; [exact H|lia|lia|].
    rewrite Nat.sub_0_r in Er. rewrite Er. cbn [bindO].
    rewrite Nat.sub_0_r, up_from_0 in Hr.
    assert (X : up (pfun (pvals p)) (psize p) j = i <->
                down (pfun (pvals p)) (psize p) i = j).
    { split; intros <-; [apply down_up|apply up_down]. }
    destruct (Nat.eqb_spec r i), (Nat.eqb_spec (down (pfun (pvals p)) (psize p) i) j); auto; tauto.
Qed.

Lemma elem_src p i j :
  legal p -> i < psize p -> j < psize p ->
  elem p i j = if src p i =? j then 1%Z else 0%Z.
Proof. intros. unfold elem. rewrite perm_cref_ok; auto. Qed.

Lemma zsum_ext n f g : (forall k, k < n -> f k = g k) -> zsum n f = zsum n g.
Proof. intro H. induction n; simpl; auto. rewrite IHn, H; auto. Qed.

Lemma zsum_zero n f : (forall k, k < n -> f k = 0%Z) -> zsum n f = 0%Z.
Proof. intro H. induction n; simpl; auto. rewrite IHn, H; auto. Qed.

Lemma zsum_single n f a :
  a < n -> (forall k, k < n -> k <> a -> f k = 0%Z) -> zsum n f = f a.
Proof.
  induction n; intros Ha H; simpl; [lia|].
  destruct (Nat.eq_dec a n) as [->|Hne].
  - rewrite zsum_zero; [lia|]. intros. apply H; lia.
  - rewrite IHn; [|lia|intros; apply H; lia].
    rewrite (H n); lia.
Qed.

Lemma perm_matvec p (v w : list Z) :
  legal p -> length v = psize p -> perm_apply p v = Ok w ->
  forall i, i < psize p ->
    nth_error w i = Some (zsum (psize p) (fun j => (elem p i j * nth j v 0)%Z)).
Proof.
  intros H Hv E i Hi.
  destruct (perm_apply_ok p v (legal_in_range _ H) Hv) as [w' [E' [L N]]].
  rewrite E in E'. injection E' as <-.
  rewrite N by auto.
  pose proof (src_lt p i (legal_in_range _ H) Hi) as Hs.
  rewrite (zsum_single _ _ (src p i)); auto.
  - rewrite elem_src, Nat.eqb_refl by auto. rewrite Z.mul_1_l.
    apply nth_error_nth'. lia.
  - intros k Hk Hne. rewrite elem_src by auto.
    destruct (Nat.eqb_spec (src p i) k); [lia|]. reflexivity.
Qed.

(** ** makeIndex, trace *)

Lemma make_index_ok p :
  in_range p ->
  exists l, perm_make_index p = Ok l /\ length l = psize p /\
            forall k, k < psize p -> nth_error l k = Some (src p k).
Proof.
  intro H. unfold perm_make_index, src.
  assert (HR : forall t, 0 <= t < 0 + psize p ->
     exists x, nth_error (pvals p) t = Some x /\ x < length (seq 0 (psize p))).
  { intros t Ht. rewrite seq_length. apply H. lia. }
  pose proof (in_range_pfun p H) as HP.
  destruct (pinv p).
  - destruct (reverse_permute_loop (pvals p) (psize p) 0 (seq 0 (psize p))) as [l [E [L N]]];
      [rewrite seq_length; lia|exact HR|].
    exists l. split; [exact E|]. split; [rewrite L; apply seq_length|].
    intros k Hk. rewrite N, upr0.
    rewrite nth_error_seq; [reflexivity|]. apply up_lt; auto.
  - destruct (permute_loop (pvals p) (psize p) 0 (seq 0 (psize p))) as [l [E [L N]]];
      [rewrite seq_length; lia|exact HR|].
    exists l. split; [exact E|]. split; [rewrite L; apply seq_length|].
    intros k Hk. rewrite N, downr0.
    rewrite nth_error_seq; [reflexivity|]. apply down_lt; auto.
Qed.

Lemma perm_trace_ok p :
  legal p -> perm_trace p = Ok (zsum (psize p) (fun i => elem p i i)).
Proof.
  intro H. unfold perm_trace.
  destruct (make_index_ok p (legal_in_range _ H)) as [l [E [L N]]].
  rewrite E. cbn [bindO].
  destruct (for_up_inv (fun k t => k <= psize p /\ t = zsum k (fun i => elem p i i))
              (psize p) 0
              (fun k t => do x <- rd l k; Ok (if x =? k then (t + 1)%Z else t)) 0%Z)
    as [t [Et [_ Ht]]].
  - simpl. split; [lia|reflexivity].
  - intros k t Hk [_ ->]. unfold rd. rewrite N by lia. cbn [bindO].
    eexists. split; [reflexivity|]. split; [lia|].
    rewrite Nat.add_1_r. simpl. rewrite elem_src by (auto; lia).
    destruct (src p k =? k); lia.
  - rewrite Et. subst t. reflexivity.
Qed.

(** ** operator== *)

Lemma eq_upto_ok n k a b :
  (forall t, k <= t < k + n -> t < length a /\ t < length b) ->
  exists r, eq_upto n k a b = Ok r /\
            (r = true <-> forall t, k <= t < k + n -> nth_error a t = nth_error b t).
Proof.
  revert k. induction n as [|n IH]; intros k H.
  - exists true. split; [reflexivity|]. split; auto. intros _ t Ht. lia.
  - cbn [eq_upto].
    destruct (H k) as [Ha Hb]; [lia|].
    destruct (nth_error_lt a k Ha) as [x Hx].
    destruct (nth_error_lt b k Hb) as [y Hy].
    unfold rd. rewrite Hx, Hy. cbn [bindO].
    destruct (Nat.eqb_spec x y) as [->|Hne].
    + destruct (IH (S k)) as [r [Er Hr]]; [intros; apply H; lia|].
      exists r. split; [exact Er|]. rewrite Hr. split; intros F t Ht.
      * destruct (Nat.eq_dec t k) as [->|]; [congruence|]. apply F. lia.
      * apply F. lia.
    + exists false. split; [reflexivity|]. split; [discriminate|].
      intro F. specialize (F k ltac:(lia)). congruence.
Qed.

(** The interchange list of a legal permutation is determined by its action. *)
Lemma downr_fix pf lo n N k :
  lo + n <= N -> (forall s, s < N -> s <= pf s) -> k < lo -> downr pf lo n k = k.
Proof.
  revert k. induction n; intros k Hn H Hk; simpl; auto.
  assert (E : tr (lo + n) (pf (lo + n)) k = k).
  { specialize (H (lo + n)). tr_cases; lia. }
  rewrite E. apply IHn; auto; lia.
Qed.

Lemma downr_split pf m n k :
  downr pf 0 (m + n) k = downr pf 0 m (downr pf m n k).
Proof.
  revert k. induction n; intros k.
  - rewrite Nat.add_0_r. reflexivity.
  - rewrite <- plus_n_Sm. simpl. rewrite IHn. reflexivity.
Qed.

Lemma downr_ext pf qf lo n k :
  (forall t, lo <= t < lo + n -> pf t = qf t) -> downr pf lo n k = downr qf lo n k.
Proof.
  revert k. induction n; simpl; intros k H; auto.
  rewrite H by lia. apply IHn. intros; apply H; lia.
Qed.

Lemma down_inj pf n a b : down pf n a = down pf n b -> a = b.
Proof. intro H. rewrite <- (up_down pf n a), H. apply up_down. Qed.

Lemma interchange_unique pf qf n :
  (forall s, s < n -> s <= pf s) -> (forall s, s < n -> s <= qf s) ->
  (forall k, k < n -> down pf n k = down qf n k) ->
  forall t, t < n -> pf t = qf t.
Proof.
  intros Hp Hq H t.
  induction t as [t IH] using lt_wf_ind. intro Ht.
  assert (E : downr pf t (n - t) t = downr qf t (n - t) t).
  { apply (down_inj pf t). rewrite <- !downr0.
    rewrite <- downr_split.
    rewrite (downr_ext pf qf 0 t (downr qf t (n - t) t)) by (intros; apply IH; lia).
    rewrite <- downr_split.
    replace (t + (n - t)) with n by lia. rewrite !downr0. apply H; auto. }
  replace (n - t) with (S (n - S t)) in E by lia.
  rewrite !downr_S in E.
  rewrite !(downr_fix _ (S t) (n - S t) n t) in E; auto; try lia.
  unfold tr in E. rewrite Nat.eqb_refl in E. exact E.
Qed.

Lemma up_eq_down_eq pf qf n :
  (forall t, t < n -> pf t < n) -> (forall t, t < n -> qf t < n) ->
  (forall k, k < n -> up pf n k = up qf n k) ->
  forall k, k < n -> down pf n k = down qf n k.
Proof.
  intros Hp Hq H k Hk.
  rewrite <- (down_up pf n (down qf n k)).
  rewrite H by (apply down_lt; auto).
  rewrite up_down. reflexivity.
Qed.

Lemma perm_eqb_src p q :
  legal p -> legal q -> psize p = psize q ->
  exists r, perm_eqb p q = Ok r /\
    (r = true <-> forall k, k < psize p -> src p k = src q k).
Proof.
  intros Hp Hq Hn. unfold perm_eqb.
  destruct (Bool.eqb_spec (pinv p) (pinv q)) as [Hi|Hi].
  - destruct (eq_upto_ok (psize p) 0 (pvals p) (pvals q)) as [r [Er Hr]].
    { intros t Ht. destruct (Hp t) as [x [Ex _]]; [lia|].
      destruct (Hq t) as [y [Ey _]]; [lia|].
      split; apply nth_error_Some; congruence. }
    exists r. split; [exact Er|]. rewrite Hr. clear Er Hr r.
    split.
    + intros F k Hk. unfold src. rewrite <- Hi, <- Hn.
      assert (G : forall t, t < psize p -> pfun (pvals p) t = pfun (pvals q) t).
      { intros t Ht. destruct (Hp t Ht) as [x [Ex _]].
        rewrite (nth_error_pfun _ _ _ Ex).
        symmetry. apply nth_error_pfun. rewrite <- F; auto. lia. }
      destruct (pinv p); [apply up_ext|apply down_ext]; auto.
    + intros F t Ht.
      assert (Bp := legal_pfun p Hp). assert (Bq := legal_pfun q Hq).
      rewrite <- Hn in Bq.
      assert (G : pfun (pvals p) t = pfun (pvals q) t).
      { apply (interchange_unique _ _ (psize p)); [| | |lia].
        - intros s Hs. apply Bp; auto.
        - intros s Hs. apply Bq; auto.
        - unfold src in F. rewrite <- Hi, <- Hn in F. destruct (pinv p); auto.
          apply up_eq_down_eq; auto.
          + intros s Hs. apply Bp; auto.
          + intros s Hs. apply Bq; auto. }
      destruct (Hp t) as [x [Ex _]]; [lia|].
      destruct (Hq t) as [y [Ey _]]; [lia|].
      rewrite (nth_error_pfun _ _ _ Ex), (nth_error_pfun _ _ _ Ey) in G. congruence.
  - destruct (make_index_ok p (legal_in_range _ Hp)) as [l1 [E1 [L1 N1]]].
    destruct (make_index_ok q (legal_in_range _ Hq)) as [l2 [E2 [L2 N2]]].
    rewrite E1, E2. cbn [bindO].
    destruct (eq_upto_ok (psize p) 0 l1 l2) as [r [Er Hr]]; [intros; lia|].
    exists r. split; [exact Er|]. rewrite Hr. split; intros F k Hk.
    + specialize (F k ltac:(lia)). rewrite N1, N2 in F by lia. congruence.
    + rewrite N1, N2 by lia. rewrite F by lia. reflexivity.
Qed.

Lemma src_elem_ext p q :
  legal p -> legal q -> psize p = psize q ->
  ((forall k, k < psize p -> src p k = src q k) <->
   (forall i j, i < psize p -> j < psize p -> perm_cref p i j = perm_cref q i j)).
Proof.
  intros Hp Hq Hn. split.
  - intros F i j Hi Hj. rewrite !perm_cref_ok; try rewrite <- Hn; auto.
    rewrite F; auto.
  - intros F k Hk. specialize (F k (src p k) Hk (src_lt p k (legal_in_range _ Hp) Hk)).
    rewrite perm_cref_ok in F; auto; [|apply src_lt; auto; apply legal_in_range; auto].
    rewrite perm_cref_ok in F; auto; try (rewrite <- Hn; auto);
      [|apply src_lt; auto; apply legal_in_range; auto].
    rewrite Nat.eqb_refl in F.
    destruct (Nat.eqb_spec (src q k) (src p k)); [auto|discriminate].
Qed.

(** ** det: the number of proper interchanges, with sign *)
Lemma perm_det_ok p :
  in_range p ->
  exists d, perm_det p = Ok d /\ (d = 1 \/ d = -1)%Z.
Proof.
  intro H. unfold perm_det.
  destruct (for_up_inv (fun _ d => d = 1 \/ d = -1)%Z (psize p) 0
    (fun i d => do pi <- rd (pvals p) i; Ok (if pi =? i then d else Z.opp d)) 1%Z)
    as [d [E Hd]]; auto.
  - intros i d Hi Hd. destruct (H i) as [x [Ex _]]; [lia|].
    unfold rd. rewrite Ex. cbn [bindO]. eexists. split; [reflexivity|].
    destruct (x =? i); lia.
  - exists d. auto.
Qed.

Lemma elem_inverse p i j :
  legal p -> i < psize p -> j < psize p ->
  elem (perm_inverse p) i j = elem p j i.
Proof.
  intros H Hi Hj. rewrite !elem_src; auto.
  destruct (Nat.eqb_spec (src (perm_inverse p) i) j) as [E1|E1],
    (Nat.eqb_spec (src p j) i) as [E2|E2]; auto.
  - rewrite <- E1, src_inverse' in E2. congruence.
  - rewrite <- E2, src_inverse in E1. congruence.
Qed.

Lemma elem_row_one p i :
  legal p -> i < psize p ->
  exists j, j < psize p /\ elem p i j = 1%Z /\
    forall j', j' < psize p -> j' <> j -> elem p i j' = 0%Z.
Proof.
  intros H Hi. exists (src p i). split; [apply src_lt; auto; apply legal_in_range; auto|].
  pose proof (src_lt p i (legal_in_range _ H) Hi). split.
  - rewrite elem_src by auto. rewrite Nat.eqb_refl. reflexivity.
  - intros j' Hj' Hne. rewrite elem_src by auto.
    destruct (Nat.eqb_spec (src p i) j'); congruence.
Qed.

Lemma elem_col_one p j :
  legal p -> j < psize p ->
  exists i, i < psize p /\ elem p i j = 1%Z /\
    forall i', i' < psize p -> i' <> i -> elem p i' j = 0%Z.
Proof.
  intros H Hj. destruct (elem_row_one (perm_inverse p) j (legal_inverse _ H) Hj) as [i [Hi [H1 H0]]].
  exists i. split; [exact Hi|]. split.
  - rewrite <- elem_inverse; auto.
  - intros i' Hi' Hne. rewrite <- elem_inverse; auto.
Qed.

Lemma elem_move {A} p i j (v w : list A) :
  legal p -> i < psize p -> j < psize p -> length v = psize p ->
  perm_apply p v = Ok w -> perm_cref p i j = Ok 1%Z -> nth_error w i = nth_error v j.
Proof.
  intros H Hi Hj Hv E C. rewrite perm_cref_ok in C by auto.
  destruct (Nat.eqb_spec (src p i) j) as [<-|]; [|discriminate].
  destruct (perm_apply_ok p v (legal_in_range _ H) Hv) as [w' [E' [_ N]]].
  rewrite E in E'. injection E' as <-. auto.
Qed.
