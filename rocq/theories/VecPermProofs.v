(** permute and reversePermute on a view. *)
From Coq Require Import ZArith Lia Bool List.
From Verif Require Import Base Scal VecView VecOps VecOpsProofs.
Import ListNotations.
Open Scope Z_scope.

(** The interchange of positions a and b. *)
Definition xch (a b k : Z) : Z := if k =? a then b else if k =? b then a else k.
(** Where the interchanges (lo,p lo), (lo+1,p(lo+1)), ... n of them, performed in
    that order, fetch the value finally at position k. *)
Fixpoint fetched (p : Z -> Z) (n : nat) (lo : Z) (k : Z) : Z :=
  match n with
  | O => k
  | S n' => xch lo (p lo) (fetched p n' (lo + 1) k)
  end.
(** The same for the interchanges performed in the opposite order. *)
Fixpoint fetched_back (p : Z -> Z) (n : nat) (lo : Z) (k : Z) : Z :=
  match n with
  | O => k
  | S n' => fetched_back p n' (lo + 1) (xch lo (p lo) k)
  end.

Lemma xch_invol a b k : xch a b (xch a b k) = k.
Proof.
  unfold xch. destruct (Z.eqb_spec k a); subst.
  - destruct (Z.eqb_spec b a); subst; auto. rewrite Z.eqb_refl. reflexivity.
  - destruct (Z.eqb_spec k b); subst.
    + rewrite Z.eqb_refl. reflexivity.
    + rewrite (proj2 (Z.eqb_neq _ _)), (proj2 (Z.eqb_neq _ _)); auto.
Qed.
Lemma fetched_inv p n lo k : fetched p n lo (fetched_back p n lo k) = k.
Proof.
  revert lo k. induction n as [|n IH]; intros lo k; simpl; auto. rewrite IH. apply xch_invol.
Qed.
Lemma fetched_inv' p n lo k : fetched_back p n lo (fetched p n lo k) = k.
Proof.
  revert lo k. induction n as [|n IH]; intros lo k; simpl; auto. rewrite xch_invol. apply IH.
Qed.
Lemma xch_range n a b k : 0 <= a < n -> 0 <= b < n -> 0 <= k < n -> 0 <= xch a b k < n.
Proof. unfold xch. intros. destruct (k =? a); auto. destruct (k =? b); auto. Qed.

Section P.
Context {K : scal}.
Implicit Types (m : mem K) (v : view).

Lemma fetched_range p n lo N k :
  0 <= lo -> lo + Z.of_nat n <= N ->
  (forall i, lo <= i < lo + Z.of_nat n -> 0 <= p i < N) -> 0 <= k < N ->
  0 <= fetched p n lo k < N.
Proof.
  revert lo. induction n as [|n IH]; intros lo Hlo Hn Hp Hk; simpl; auto.
  apply xch_range; [lia|apply Hp; lia|]. apply IH; auto; try lia. intros i Hi. apply Hp. lia.
Qed.
Lemma fetched_back_range p n lo N k :
  0 <= lo -> lo + Z.of_nat n <= N ->
  (forall i, lo <= i < lo + Z.of_nat n -> 0 <= p i < N) -> 0 <= k < N ->
  0 <= fetched_back p n lo k < N.
Proof.
  revert lo k. induction n as [|n IH]; intros lo k Hlo Hn Hp Hk; simpl; auto.
  apply IH; auto; try lia.
  - intros i Hi. apply Hp. lia.
  - apply xch_range; auto; [lia|apply Hp; lia].
Qed.

Lemma permute_loop v p n lo m : vstep v <> 0 -> (Z.of_nat lo + Z.of_nat n <= vsize v) ->
  (forall i, Z.of_nat lo <= i < Z.of_nat lo + Z.of_nat n -> 0 <= p i < vsize v) ->
  exists m', for_up n lo (fun i m => swap_checked v (Z.of_nat i) (p (Z.of_nat i)) m) m = Ok m' /\
    becomes v m m' (fun k => get m v (fetched p n (Z.of_nat lo) k)).
Proof.
  intro Hs. revert lo m. induction n as [|n IH]; intros lo m Hn Hp.
  - exists m. split; [reflexivity|]. split; [reflexivity|intros a _; reflexivity].
  - cbn [for_up]. rewrite swap_checked_ok; [|lia|apply Hp; lia]. cbn [bindO].
    destruct (IH (S lo) (do_swap v (Z.of_nat lo) (p (Z.of_nat lo)) m)) as (m' & E & H).
    { lia. } { intros i Hi. apply Hp. lia. }
    exists m'. split; [exact E|].
    pose proof (do_swap_ok v (Z.of_nat lo) (p (Z.of_nat lo)) m Hs ltac:(lia) (Hp (Z.of_nat lo) ltac:(lia))) as H0.
    replace (Z.of_nat (S lo)) with (Z.of_nat lo + 1) in H by lia.
    apply (becomes_trans v m _ m' _ (fetched p n (Z.of_nat lo + 1)) H0 H).
    intros i Hi. apply fetched_range; try lia. intros j Hj. apply Hp. lia.
Qed.

Lemma reverse_permute_loop v p n lo m : vstep v <> 0 -> (Z.of_nat lo + Z.of_nat n <= vsize v) ->
  (forall i, Z.of_nat lo <= i < Z.of_nat lo + Z.of_nat n -> 0 <= p i < vsize v) ->
  exists m', for_down n lo (fun i m => swap_checked v (Z.of_nat i) (p (Z.of_nat i)) m) m = Ok m' /\
    becomes v m m' (fun k => get m v (fetched_back p n (Z.of_nat lo) k)).
Proof.
  intro Hs. revert m. induction n as [|n IH]; intros m Hn Hp.
  - exists m. split; [reflexivity|]. split; [reflexivity|intros a _; reflexivity].
  - cbn [for_down].
    set (q := Z.of_nat (lo + n)). assert (Hq : q = Z.of_nat lo + Z.of_nat n) by (unfold q; lia).
    rewrite swap_checked_ok; [|lia|apply Hp; lia]. cbn [bindO].
    destruct (IH (do_swap v q (p q) m)) as (m' & E & H).
    { lia. } { intros i Hi. apply Hp. lia. }
    exists m'. split; [exact E|].
    pose proof (do_swap_ok v q (p q) m Hs ltac:(lia) (Hp q ltac:(lia))) as H0.
    eapply becomes_ext;
      [|apply (becomes_trans v m _ m' _ (fetched_back p n (Z.of_nat lo)) H0 H)].
    + intros i Hi. cbv beta. f_equal. clearbody q. clear -Hq.
      change (xch q (p q) (fetched_back p n (Z.of_nat lo) i) = fetched_back p (S n) (Z.of_nat lo) i).
      subst q. generalize (Z.of_nat lo) as l. clear lo. intro l.
      revert l i. induction n as [|n IH]; intros l i.
      * simpl. rewrite Z.add_0_r. reflexivity.
      * change (xch (l + Z.of_nat (S n)) (p (l + Z.of_nat (S n)))
                  (fetched_back p n (l + 1) (xch l (p l) i))
                = fetched_back p (S n) (l + 1) (xch l (p l) i)).
        rewrite <- IH.
        replace (l + 1 + Z.of_nat n) with (l + Z.of_nat (S n)) by lia. reflexivity.
    + intros i Hi. apply fetched_back_range; try lia. intros j Hj. apply Hp. lia.
Qed.

Lemma permute_ok v p i1 i2 m : vstep v <> 0 -> 0 <= i1 <= i2 -> i2 <= vsize v ->
  (forall i, i1 <= i < i2 -> 0 <= p i < vsize v) ->
  exists m', permute v p i1 i2 m = Ok m' /\
    becomes v m m' (fun k => get m v (fetched p (Z.to_nat (i2 - i1)) i1 k)).
Proof.
  intros Hs H1 H2 Hp. unfold permute.
  rewrite (proj2 (Z.leb_le 0 i1)), (proj2 (Z.leb_le i1 i2)), (proj2 (Z.leb_le i2 _)) by lia. cbn [andb].
  destruct (permute_loop v p (Z.to_nat (i2 - i1)) (Z.to_nat i1) m Hs) as (m' & E & H); try lia.
  { intros i Hi. apply Hp. lia. }
  rewrite Z2Nat.id in H by lia. eauto.
Qed.
Lemma reverse_permute_ok v p i1 i2 m : vstep v <> 0 -> 0 <= i1 <= i2 -> i2 <= vsize v ->
  (forall i, i1 <= i < i2 -> 0 <= p i < vsize v) ->
  exists m', reverse_permute v p i1 i2 m = Ok m' /\
    becomes v m m' (fun k => get m v (fetched_back p (Z.to_nat (i2 - i1)) i1 k)).
Proof.
  intros Hs H1 H2 Hp. unfold reverse_permute.
  rewrite (proj2 (Z.leb_le 0 i1)), (proj2 (Z.leb_le i1 i2)), (proj2 (Z.leb_le i2 _)) by lia. cbn [andb].
  destruct (reverse_permute_loop v p (Z.to_nat (i2 - i1)) (Z.to_nat i1) m Hs) as (m' & E & H); try lia.
  { intros i Hi. apply Hp. lia. }
  rewrite Z2Nat.id in H by lia. eauto.
Qed.

Lemma permute_round_trip v p i1 i2 m : vstep v <> 0 -> 0 <= i1 <= i2 -> i2 <= vsize v ->
  (forall i, i1 <= i < i2 -> 0 <= p i < vsize v) ->
  exists m' m'', permute v p i1 i2 m = Ok m' /\ reverse_permute v p i1 i2 m' = Ok m'' /\
    becomes v m m'' (get m v).
Proof.
  intros Hs H1 H2 Hp.
  destruct (permute_ok v p i1 i2 m Hs H1 H2 Hp) as (m' & E & H).
  destruct (reverse_permute_ok v p i1 i2 m' Hs H1 H2 Hp) as (m'' & E' & H').
  exists m', m''. split; auto. split; auto.
  eapply becomes_ext; [|apply (becomes_trans v m m' m'' _ _ H H')].
  - intros i Hi. cbv beta. rewrite fetched_inv. reflexivity.
  - intros i Hi. apply fetched_back_range; try lia. intros j Hj. apply Hp. lia.
Qed.
End P.
