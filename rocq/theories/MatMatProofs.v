(** Proofs about MatMat.v: the simple algorithms. *)
From Coq Require Import ZArith Lia Bool List Ring Arith.
From Verif Require Import Base Scal ScalC MatMem MatVec MatVecProofs MatMat.
Import ListNotations.
Open Scope Z_scope.

(** No element of A is an element of C. *)
Definition mm_disj (A C : mat) : Prop := forall l, in_mat A l -> in_mat C l -> False.

Lemma upto_app {S} a b f (s : S) : upto (a + b) f s = upto b (fun i => f (a + i)%nat) (upto a f s).
Proof.
  induction b as [|b IH]; [rewrite Nat.add_0_r; reflexivity|].
  rewrite Nat.add_succ_r. cbn [upto]. rewrite IH. reflexivity.
Qed.
Lemma upto_ext {S} n f g (s : S) : (forall i s, (i < n)%nat -> f i s = g i s) -> upto n f s = upto n g s.
Proof.
  induction n as [|n IH]; intro H; cbn [upto]; [reflexivity|].
  rewrite IH by (intros; apply H; lia). apply H. lia.
Qed.
Lemma upto_chunks {S} c n f (s : S) :
  upto n (fun t => upto c (fun i => f (c * t + i)%nat)) s = upto (c * n) f s.
Proof.
  induction n as [|n IH]; [rewrite Nat.mul_0_r; reflexivity|].
  cbn [upto]. rewrite IH, Nat.mul_succ_r, upto_app. reflexivity.
Qed.

Section Proofs.
Context {K : scal}.
Add Ring Kring2 : (kring K).
Implicit Types (m : hmem K) (A B C : mat) (alpha : K).

(** The (i,j) element of A*B. *)
Definition mm (m : hmem K) A B (i j : nat) : K :=
  sum (ars A) (fun k => kmul (mget m A i k) (mget m B k j)).

Lemma mm_ext m m' A B i j :
  (forall k, (k < ars A)%nat -> m' (mloc A i k) = m (mloc A i k)) ->
  (forall k, (k < ars A)%nat -> m' (mloc B k j) = m (mloc B k j)) ->
  mm m' A B i j = mm m A B i j.
Proof.
  intros HA HB. unfold mm. apply sum_ext. intros k Hk. unfold mget. rewrite HA, HB by auto. reflexivity.
Qed.

Lemma blk_not_in C (l : loc) : fst l <> ab C -> ~ in_mat C l.
Proof. intros H (i & j & _ & _ & ->). apply H. reflexivity. Qed.

(** *** Whole-matrix steps *)
Lemma mtmp_inj b M N : minj (mtmp b M N).
Proof.
  intros i j i' j' Hi Hj Hi' Hj' E. unfold mloc, mtmp in *. cbn [acs ars ab ap asi asj] in *.
  apply (f_equal snd) in E. cbn [snd] in E. assert (j = j') by nia. subst. split; [nia|auto].
Qed.

Lemma scatter_mat C (v : nat -> nat -> K) f m :
  minj C ->
  (forall i j m', (i < acs C)%nat -> (j < ars C)%nat ->
     (forall l, ~ in_mat C l -> m' l = m l) ->
     m' (mloc C i j) = m (mloc C i j) -> f j i m' = hset m' (mloc C i j) (v i j)) ->
  let m2 := upto (ars C) (fun j => upto (acs C) (f j)) m in
  (forall i j, (i < acs C)%nat -> (j < ars C)%nat -> m2 (mloc C i j) = v i j) /\
  (forall l, ~ in_mat C l -> m2 l = m l).
Proof.
  intros HC Hf. destruct (upto2_scatter (mloc C) v (acs C) (ars C) f m) as [P Q].
  - exact HC.
  - intros i j m' Hi Hj Hm'. apply Hf; auto.
    + intros l Hl. apply Hm'. intros i' j' Hi' Hj' E. apply Hl. exists i', j'. split; [auto|split; [lia|auto]].
    + apply Hm'. intros i' j' Hi' Hj' E. destruct (HC i j i' j'); auto; lia.
  - split; [exact P|]. intros l Hl. apply Q. intros i j Hi Hj E. apply Hl. exists i, j. auto.
Qed.

Lemma mscale_spec b alpha A m : ab A <> b ->
  (forall i j, (i < acs A)%nat -> (j < ars A)%nat ->
     mget (mscale b alpha A m) (mtmp b (acs A) (ars A)) i j = kmul alpha (mget m A i j)) /\
  (forall l, fst l <> b -> mscale b alpha A m l = m l).
Proof.
  intro Hb. destruct (scatter_mat (mtmp b (acs A) (ars A)) (fun i j => kmul alpha (mget m A i j))
    (fun j i m => hset m (mloc (mtmp b (acs A) (ars A)) i j) (kmul alpha (mget m A i j))) m) as [P Q].
  - apply mtmp_inj.
  - intros i j m' Hi Hj Hm' _. unfold mget. rewrite Hm'; [reflexivity|]. apply blk_not_in. exact Hb.
  - split; [exact P|]. intros l Hl. apply Q. apply blk_not_in. exact Hl.
Qed.

Lemma mcopy_spec b A m : ab A <> b ->
  (forall i j, (i < acs A)%nat -> (j < ars A)%nat ->
     mget (mcopy b A m) (mtmp b (acs A) (ars A)) i j = mget m A i j) /\
  (forall l, fst l <> b -> mcopy b A m l = m l).
Proof.
  intro Hb. destruct (scatter_mat (mtmp b (acs A) (ars A)) (fun i j => mget m A i j)
    (fun j i m => hset m (mloc (mtmp b (acs A) (ars A)) i j) (mget m A i j)) m) as [P Q].
  - apply mtmp_inj.
  - intros i j m' Hi Hj Hm' _. unfold mget. rewrite Hm'; [reflexivity|]. apply blk_not_in. exact Hb.
  - split; [exact P|]. intros l Hl. apply Q. apply blk_not_in. exact Hl.
Qed.

Lemma maxpy_spec (add : bool) alpha X C m : minj C -> ab X <> ab C ->
  (forall i j, (i < acs C)%nat -> (j < ars C)%nat ->
     maxpy add alpha X C m (mloc C i j) =
       kadd (if add then m (mloc C i j) else k0) (kmul alpha (mget m X i j))) /\
  (forall l, ~ in_mat C l -> maxpy add alpha X C m l = m l).
Proof.
  intros HC Hb. apply (scatter_mat C (fun i j =>
    kadd (if add then m (mloc C i j) else k0) (kmul alpha (mget m X i j)))); [exact HC|].
  intros i j m' Hi Hj Hm' E. cbv zeta. unfold mget. rewrite E, (Hm' (mloc X i j)) by (apply blk_not_in; exact Hb).
  destruct add; [reflexivity|]. f_equal. ring.
Qed.

Lemma madd_spec (add : bool) X C m : minj C -> ab X <> ab C ->
  (forall i j, (i < acs C)%nat -> (j < ars C)%nat ->
     madd add X C m (mloc C i j) = kadd (if add then m (mloc C i j) else k0) (mget m X i j)) /\
  (forall l, ~ in_mat C l -> madd add X C m l = m l).
Proof.
  intros HC Hb. apply (scatter_mat C (fun i j =>
    kadd (if add then m (mloc C i j) else k0) (mget m X i j))); [exact HC|].
  intros i j m' Hi Hj Hm' E. cbv zeta. unfold mget. rewrite E, (Hm' (mloc X i j)) by (apply blk_not_in; exact Hb).
  destruct add; [reflexivity|]. f_equal. ring.
Qed.

Lemma mtimes_spec alpha X m : minj X ->
  (forall i j, (i < acs X)%nat -> (j < ars X)%nat ->
     mtimes alpha X m (mloc X i j) = kmul alpha (m (mloc X i j))) /\
  (forall l, ~ in_mat X l -> mtimes alpha X m l = m l).
Proof.
  intros HC. apply (scatter_mat X (fun i j => kmul alpha (m (mloc X i j)))); [exact HC|].
  intros i j m' Hi Hj Hm' E. rewrite E. reflexivity.
Qed.

(** *** ColMult *)
Lemma ColMult_flat (ca : bool) M b00 (A C : loc) m :
  ColMult ca M b00 A C m = upto M (cmstep ca b00 A C) m.
Proof.
  unfold ColMult. cbv zeta. generalize (cmstep ca b00 A C). intro f.
  rewrite (upto_chunks 8 (M / 8) f m).
  pose proof (Nat.div_mod M 8 ltac:(lia)) as E. pose proof (Nat.mod_upper_bound M 8 ltac:(lia)) as Hr.
  set (q := (8 * (M / 8))%nat) in *. set (r := (M mod 8)%nat) in *. clearbody q r.
  assert (Up : forall a b s, upto b (fun i => f (a + i)%nat) (upto a f s) = upto (a + b) f s)
    by (intros; symmetry; apply upto_app).
  repeat match goal with
  | |- context [(4 <=? ?x)%nat] => destruct (Nat.leb_spec 4 x)
  | |- context [(2 <=? ?x)%nat] => destruct (Nat.leb_spec 2 x)
  | |- context [(0 <? ?x)%nat] => destruct (Nat.ltb_spec 0 x)
  end; rewrite ?Up; f_equal; lia.
Qed.

(** *** Products given by pointers: C += A*B and nothing else *)
Definition accp (ca cb : bool) (M N k : nat) (A : loc) (Asi Ask : Z) (B : loc) (Bsk Bsj : Z)
    (C : loc) (Csi Csj : Z) m m2 : Prop :=
  (forall i j, (i < M)%nat -> (j < N)%nat ->
     m2 (C +! (Z.of_nat i * Csi + Z.of_nat j * Csj)) =
       kadd (m (C +! (Z.of_nat i * Csi + Z.of_nat j * Csj)))
            (sum k (fun q => kmul (cjif ca (m (A +! (Z.of_nat i * Asi + Z.of_nat q * Ask))))
                                  (cjif cb (m (B +! (Z.of_nat q * Bsk + Z.of_nat j * Bsj))))))) /\
  (forall l, (forall i j, (i < M)%nat -> (j < N)%nat -> l <> C +! (Z.of_nat i * Csi + Z.of_nat j * Csj)) ->
     m2 l = m l).

Lemma poff_poff p a b : p +! a +! b = p +! (a + b).
Proof. unfold poff. cbn [fst snd]. f_equal. lia. Qed.
Lemma poff_0 p : p +! 0 = p.
Proof. destruct p. unfold poff. cbn [fst snd]. f_equal. lia. Qed.
Lemma poff_ne p q a b : fst p <> fst q -> p +! a <> q +! b.
Proof. intros H E. apply (f_equal fst) in E. cbn [fst poff] in E. auto. Qed.
Lemma poff_eq p a b : p +! a = p +! b -> a = b.
Proof. intro E. apply (f_equal snd) in E. cbn [snd poff] in E. lia. Qed.

Lemma ColMult_spec (ca cb : bool) M (A B C : loc) Ask Bsk Bsj Csj m :
  fst A <> fst C ->
  accp ca cb M 1 1 A 1 Ask B Bsk Bsj C 1 Csj m (ColMult ca M (cjif cb (m B)) A C m).
Proof.
  intro HA. rewrite ColMult_flat.
  destruct (upto_scatter (fun i => C +! Z.of_nat i)
    (fun i => kadd (m (C +! Z.of_nat i)) (kmul (cjif ca (m (A +! Z.of_nat i))) (cjif cb (m B)))) M
    (cmstep ca (cjif cb (m B)) A C) m) as [P Q].
  - intros i j _ _ E. apply poff_eq in E. lia.
  - intros i m' Hi Hm'. unfold cmstep. rewrite (Hm' (C +! Z.of_nat i)), (Hm' (A +! Z.of_nat i)); [reflexivity| |].
    + intros k _ E. revert E. apply poff_ne. exact HA.
    + intros k Hk E. apply poff_eq in E. lia.
  - split.
    + intros i j Hi Hj. replace j with O by lia.
      replace (Z.of_nat i * 1 + Z.of_nat 0 * Csj) with (Z.of_nat i) by lia.
      rewrite P by auto. f_equal. cbn [sum].
      replace (Z.of_nat i * 1 + Z.of_nat 0 * Ask) with (Z.of_nat i) by lia.
      replace (Z.of_nat 0 * Bsk + Z.of_nat 0 * Bsj) with 0 by lia.
      rewrite poff_0. ring.
    + intros l Hl. apply Q. intros i Hi E. apply (Hl i O); [auto|lia|].
      rewrite E. f_equal. lia.
Qed.

Section Split.
Variables (ca cb : bool) (A B C : loc) (Asi Ask Bsk Bsj Csi Csj : Z).
Hypothesis HA : fst A <> fst C.
Hypothesis HB : fst B <> fst C.

Lemma accp_outside (M N k : nat) (A' B' C' : loc) m m1 (l : loc) :
  fst l <> fst C' -> accp ca cb M N k A' Asi Ask B' Bsk Bsj C' Csi Csj m m1 -> m1 l = m l.
Proof.
  intros Hl [_ Q]. apply Q. intros i j _ _ E. apply Hl. rewrite E. reflexivity.
Qed.

Lemma split_k M N k1 k2 m m1 m2 :
  accp ca cb M N k1 A Asi Ask B Bsk Bsj C Csi Csj m m1 ->
  accp ca cb M N k2 (A +! Z.of_nat k1 * Ask) Asi Ask (B +! Z.of_nat k1 * Bsk) Bsk Bsj C Csi Csj m1 m2 ->
  accp ca cb M N (k1 + k2) A Asi Ask B Bsk Bsj C Csi Csj m m2.
Proof.
  intros H1 [P2 Q2]. pose proof H1 as [P1 Q1]. split.
  - intros i j Hi Hj. rewrite P2, P1 by auto. rewrite <- (Radd_assoc (kring K)), sum_app. f_equal. f_equal.
    apply sum_ext. intros q Hq. rewrite !poff_poff.
    rewrite !(accp_outside _ _ _ _ _ _ _ _ (A +! _) HA H1), !(accp_outside _ _ _ _ _ _ _ _ (B +! _) HB H1).
    f_equal; (f_equal; f_equal; f_equal; lia).
  - intros l Hl. rewrite Q2, Q1 by auto. reflexivity.
Qed.

(** The two halves of C must not overlap. *)
Lemma split_n M N1 N2 k m m1 m2 :
  (forall i j i' j', (i < M)%nat -> (j < N1 + N2)%nat -> (i' < M)%nat -> (j' < N1 + N2)%nat ->
     Z.of_nat i * Csi + Z.of_nat j * Csj = Z.of_nat i' * Csi + Z.of_nat j' * Csj -> i = i' /\ j = j') ->
  accp ca cb M N1 k A Asi Ask B Bsk Bsj C Csi Csj m m1 ->
  accp ca cb M N2 k A Asi Ask (B +! Z.of_nat N1 * Bsj) Bsk Bsj (C +! Z.of_nat N1 * Csj) Csi Csj m1 m2 ->
  accp ca cb M (N1 + N2) k A Asi Ask B Bsk Bsj C Csi Csj m m2.
Proof.
  intros Inj H1 [P2 Q2]. pose proof H1 as [P1 Q1]. split.
  - intros i j Hi Hj. destruct (Nat.lt_ge_cases j N1) as [L|G].
    + rewrite Q2. { apply P1; auto. }
      intros i' j' Hi' Hj'. rewrite poff_poff. intro E. apply poff_eq in E.
      destruct (Inj i j i' (N1 + j')%nat); auto; lia.
    + specialize (P2 i (j - N1)%nat Hi ltac:(lia)). rewrite !poff_poff in P2.
      replace (Z.of_nat N1 * Csj + (Z.of_nat i * Csi + Z.of_nat (j - N1) * Csj))
        with (Z.of_nat i * Csi + Z.of_nat j * Csj) in P2 by (rewrite Nat2Z.inj_sub by lia; ring).
      rewrite P2, Q1.
      2:{ intros i' j' Hi' Hj' E. apply poff_eq in E. destruct (Inj i j i' j'); auto; lia. }
      f_equal. apply sum_ext. intros q Hq. rewrite !poff_poff.
      rewrite !(accp_outside _ _ _ _ _ _ _ _ (A +! _) HA H1), !(accp_outside _ _ _ _ _ _ _ _ (B +! _) HB H1).
      f_equal; f_equal; f_equal; f_equal; rewrite Nat2Z.inj_sub by lia; ring.
  - intros l Hl. rewrite Q2, Q1; [reflexivity| |].
    + intros i j Hi Hj. apply Hl; auto; lia.
    + intros i j Hi Hj. rewrite poff_poff. intro E. apply (Hl i (N1 + j)%nat); auto; [lia|].
      rewrite E. f_equal. lia.
Qed.

Lemma split_m M1 M2 N k m m1 m2 :
  (forall i j i' j', (i < M1 + M2)%nat -> (j < N)%nat -> (i' < M1 + M2)%nat -> (j' < N)%nat ->
     Z.of_nat i * Csi + Z.of_nat j * Csj = Z.of_nat i' * Csi + Z.of_nat j' * Csj -> i = i' /\ j = j') ->
  accp ca cb M1 N k A Asi Ask B Bsk Bsj C Csi Csj m m1 ->
  accp ca cb M2 N k (A +! Z.of_nat M1 * Asi) Asi Ask B Bsk Bsj (C +! Z.of_nat M1 * Csi) Csi Csj m1 m2 ->
  accp ca cb (M1 + M2) N k A Asi Ask B Bsk Bsj C Csi Csj m m2.
Proof.
  intros Inj H1 [P2 Q2]. pose proof H1 as [P1 Q1]. split.
  - intros i j Hi Hj. destruct (Nat.lt_ge_cases i M1) as [L|G].
    + rewrite Q2. { apply P1; auto. }
      intros i' j' Hi' Hj'. rewrite poff_poff. intro E. apply poff_eq in E.
      destruct (Inj i j (M1 + i')%nat j'); auto; lia.
    + specialize (P2 (i - M1)%nat j ltac:(lia) Hj). rewrite !poff_poff in P2.
      replace (Z.of_nat M1 * Csi + (Z.of_nat (i - M1) * Csi + Z.of_nat j * Csj))
        with (Z.of_nat i * Csi + Z.of_nat j * Csj) in P2 by (rewrite Nat2Z.inj_sub by lia; ring).
      rewrite P2, Q1.
      2:{ intros i' j' Hi' Hj' E. apply poff_eq in E. destruct (Inj i j i' j'); auto; lia. }
      f_equal. apply sum_ext. intros q Hq. rewrite !poff_poff.
      rewrite !(accp_outside _ _ _ _ _ _ _ _ (A +! _) HA H1), !(accp_outside _ _ _ _ _ _ _ _ (B +! _) HB H1).
      f_equal; f_equal; f_equal; f_equal; rewrite Nat2Z.inj_sub by lia; ring.
  - intros l Hl. rewrite Q2, Q1; [reflexivity| |].
    + intros i j Hi Hj. apply Hl; auto; lia.
    + intros i j Hi Hj. rewrite poff_poff. intro E. apply (Hl (M1 + i)%nat j); auto; [lia|].
      rewrite E. f_equal. lia.
Qed.
End Split.

Lemma cm_sep M N Csj : Z.of_nat M <= Csj ->
  forall i j i' j', (i < M)%nat -> (j < N)%nat -> (i' < M)%nat -> (j' < N)%nat ->
  Z.of_nat i * 1 + Z.of_nat j * Csj = Z.of_nat i' * 1 + Z.of_nat j' * Csj -> i = i' /\ j = j'.
Proof. intros H i j i' j' Hi Hj Hi' Hj' E. assert (j = j') by nia. subst. split; [nia|auto]. Qed.

Lemma RecCxC_spec fuel : forall (ca cb : bool) M N k (A B C : loc) Ask Bsk Bsj Csj m,
  (N + k <= fuel)%nat -> (0 < N)%nat -> (0 < k)%nat -> Z.of_nat M <= Csj ->
  fst A <> fst C -> fst B <> fst C ->
  exists m2, RecCxC fuel ca cb M N k A B C Ask Bsk Bsj Csj m = Some m2 /\
    accp ca cb M N k A 1 Ask B Bsk Bsj C 1 Csj m m2.
Proof.
  induction fuel as [|f IH]; intros ca cb M N k A B C Ask Bsk Bsj Csj m Hf HN Hk HM HA HB; [lia|].
  cbn [RecCxC].
  destruct (Nat.ltb_spec N k) as [L|G].
  - assert (D : (0 < k / 2 < k)%nat) by (split; [apply Nat.div_str_pos|apply Nat.div_lt]; lia).
    destruct (IH ca cb M N (k / 2)%nat A B C Ask Bsk Bsj Csj m) as (m1 & -> & S1); auto; try lia.
    destruct (IH ca cb M N (k - k / 2)%nat (A +! Z.of_nat (k / 2) * Ask) (B +! Z.of_nat (k / 2) * Bsk) C
                Ask Bsk Bsj Csj m1) as (m2 & -> & S2); auto; try lia.
    exists m2. split; [reflexivity|].
    replace k with (k / 2 + (k - k / 2))%nat at 1 by lia. eapply split_k; eauto.
  - destruct (Nat.ltb_spec 1 N) as [L1|G1].
    + assert (D : (0 < N / 2 < N)%nat) by (split; [apply Nat.div_str_pos|apply Nat.div_lt]; lia).
      destruct (IH ca cb M (N / 2)%nat k A B C Ask Bsk Bsj Csj m) as (m1 & -> & S1); auto; try lia.
      destruct (IH ca cb M (N - N / 2)%nat k A (B +! Z.of_nat (N / 2) * Bsj) (C +! Z.of_nat (N / 2) * Csj)
                  Ask Bsk Bsj Csj m1) as (m2 & -> & S2); auto; try lia.
      exists m2. split; [reflexivity|].
      replace N with (N / 2 + (N - N / 2))%nat at 1 by lia. eapply split_n; eauto. apply cm_sep. exact HM.
    + exists (ColMult ca M (cjif cb (m B)) A C m). split; [reflexivity|].
      replace N with 1%nat by lia. replace k with 1%nat by lia. apply ColMult_spec. exact HA.
Qed.

Lemma sum_rev n (f : nat -> K) : upto n (fun t c => kadd c (f (n - 1 - t)%nat)) k0 = sum n f.
Proof.
  assert (G : forall p, (p <= n)%nat ->
    upto p (fun t c => kadd c (f (n - 1 - t)%nat)) k0 = sum p (fun q => f (n - p + q)%nat)).
  { induction p as [|p IH]; intro Hp; [reflexivity|].
    cbn [upto]. rewrite IH by lia.
    replace (sum (S p) (fun q => f (n - S p + q)%nat))
      with (kadd (f (n - 1 - p)%nat) (sum p (fun q => f (n - p + q)%nat))).
    - ring.
    - change (S p) with (1 + p)%nat. rewrite sum_app. cbn [sum].
      replace (n - (1 + p) + 0)%nat with (n - 1 - p)%nat by lia.
      rewrite (sum_ext p (fun q => f (n - p + q)%nat) (fun q => f (n - (1 + p) + (1 + q))%nat)).
      + ring.
      + intros q Hq. f_equal. lia. }
  rewrite G by lia. apply sum_ext. intros q _. f_equal. lia.
Qed.

Lemma RCCtile_spec (ca cb : bool) M N k (A B C : loc) Asi Bsj Csj m : Z.of_nat M <= Csj ->
  accp ca cb M N k A Asi 1 B 1 Bsj C 1 Csj m (RCCtile ca cb M N k A B C Asi Bsj Csj m).
Proof.
  intro HM. unfold RCCtile. cbv zeta.
  apply (upto2_scatter (fun i j => C +! (Z.of_nat i * 1 + Z.of_nat j * Csj))
    (fun i j => kadd (m (C +! (Z.of_nat i * 1 + Z.of_nat j * Csj)))
       (sum k (fun q => kmul (cjif ca (m (A +! (Z.of_nat i * Asi + Z.of_nat q * 1))))
                             (cjif cb (m (B +! (Z.of_nat q * 1 + Z.of_nat j * Bsj)))))))
    M N).
  - intros i j i' j' Hi Hj Hi' Hj' E. apply poff_eq in E. apply (cm_sep M N Csj HM); auto.
  - intros i j m' Hi Hj Hm'. replace (Z.of_nat i + Z.of_nat j * Csj) with (Z.of_nat i * 1 + Z.of_nat j * Csj) by lia.
    rewrite Hm'.
    + f_equal. f_equal. rewrite <- sum_rev. apply upto_ext. intros t c Ht. f_equal.
      f_equal; (f_equal; f_equal; f_equal; lia).
    + intros i' j' Hi' Hj' E. apply poff_eq in E. destruct (cm_sep M N Csj HM i j i' j'); auto; lia.
Qed.

Lemma clip4_id n : (0 < n <= 4)%nat -> clip4 n = n.
Proof. intro H. destruct n as [|[|[|[|[|n]]]]]; try reflexivity; lia. Qed.

Lemma RecRCC_spec fuel : forall (ca cb : bool) M N k (A B C : loc) Asi Bsj Csj m,
  (M + N <= fuel)%nat -> (0 < M)%nat -> (0 < N)%nat -> Z.of_nat M <= Csj ->
  fst A <> fst C -> fst B <> fst C ->
  exists m2, RecRCC fuel ca cb M N k A B C Asi Bsj Csj m = Some m2 /\
    accp ca cb M N k A Asi 1 B 1 Bsj C 1 Csj m m2.
Proof.
  induction fuel as [|f IH]; intros ca cb M N k A B C Asi Bsj Csj m Hf HM HN HC HA HB; [lia|].
  cbn [RecRCC].
  destruct (Nat.ltb_spec N M) as [L|G]; [destruct (Nat.ltb_spec 4 M) as [L4|G4]|]; cbn [andb].
  1:{ assert (D : (0 < M / 2 < M)%nat) by (split; [apply Nat.div_str_pos|apply Nat.div_lt]; lia).
      destruct (IH ca cb (M / 2)%nat N k A B C Asi Bsj Csj m) as (m1 & -> & S1); auto; try lia.
      destruct (IH ca cb (M - M / 2)%nat N k (A +! Z.of_nat (M / 2) * Asi) B (C +! Z.of_nat (M / 2))
                  Asi Bsj Csj m1) as (m2 & -> & S2); auto; try lia.
      exists m2. split; [reflexivity|].
      replace M with (M / 2 + (M - M / 2))%nat at 1 by lia.
      replace (Z.of_nat (M / 2)) with (Z.of_nat (M / 2) * 1) in S2 at 2 by lia.
      eapply split_m; eauto. apply cm_sep. lia. }
  all: destruct (Nat.ltb_spec 4 N) as [LN|GN].
  1: exfalso; lia.
  2: assert (D : (0 < N / 2 < N)%nat) by (split; [apply Nat.div_str_pos|apply Nat.div_lt]; lia);
      destruct (IH ca cb M (N / 2)%nat k A B C Asi Bsj Csj m) as (m1 & -> & S1); auto; try lia;
      destruct (IH ca cb M (N - N / 2)%nat k A (B +! Z.of_nat (N / 2) * Bsj) (C +! Z.of_nat (N / 2) * Csj)
                  Asi Bsj Csj m1) as (m2 & -> & S2); auto; try lia;
      exists m2; split; [reflexivity|];
      replace N with (N / 2 + (N - N / 2))%nat at 1 by lia; eapply split_n; eauto; apply cm_sep; exact HC.
  all: eexists; split; [reflexivity|]; rewrite !clip4_id by lia; apply RCCtile_spec; exact HC.
Qed.

(** *** The whole simple algorithms *)
Definition prod_post (add : bool) alpha A B C m m2 : Prop :=
  (forall i j, (i < acs C)%nat -> (j < ars C)%nat ->
     m2 (mloc C i j) = kadd (if add then m (mloc C i j) else k0) (kmul alpha (mm m A B i j))) /\
  (forall l, (fst l < 4)%nat -> ~ in_mat C l -> m2 l = m l).

Lemma mloc_ptr A i j : mloc A i j = mptr A +! (Z.of_nat i * asi A + Z.of_nat j * asj A).
Proof. unfold mloc, mptr, poff. cbn [fst snd]. f_equal. lia. Qed.

Lemma accp_mm A B C m m2 :
  accp (acj A) (acj B) (acs C) (ars C) (ars A) (mptr A) (asi A) (asj A) (mptr B) (asi B) (asj B)
       (mptr C) (asi C) (asj C) m m2 ->
  (forall i j, (i < acs C)%nat -> (j < ars C)%nat ->
     m2 (mloc C i j) = kadd (m (mloc C i j)) (mm m A B i j)) /\
  (forall l, ~ in_mat C l -> m2 l = m l).
Proof.
  intros [P Q]. split.
  - intros i j Hi Hj. rewrite mloc_ptr, P by auto. f_equal. apply sum_ext. intros q Hq.
    unfold mget. rewrite !mloc_ptr. reflexivity.
  - intros l Hl. apply Q. intros i j Hi Hj E. apply Hl. exists i, j. rewrite mloc_ptr. auto.
Qed.

Lemma DoSimple_spec rec (add : bool) alpha A B C m :
  minj C -> (ab C < 5)%nat -> (ab A < 5)%nat -> (ab B < 5)%nat ->
  let Ct := mtmp 5 (acs C) (ars C) in
  (forall m, exists m2, rec (mptr Ct) (asj Ct) m = Some m2 /\
     accp (acj A) (acj B) (acs C) (ars C) (ars A) (mptr A) (asi A) (asj A) (mptr B) (asi B) (asj B)
       (mptr Ct) (asi Ct) (asj Ct) m m2) ->
  exists m2, DoSimple rec add alpha C m = Some m2 /\ prod_post add alpha A B C m m2.
Proof.
  intros HC Hb HA HB Ct Hrec. unfold DoSimple. fold Ct.
  destruct (mzero_spec Ct m (mtmp_inj _ _ _)) as [Z1 Z2].
  destruct (Hrec (mzero Ct m)) as (m1 & -> & S1). apply (accp_mm A B Ct) in S1. destruct S1 as [P1 Q1].
  set (m2 := if negb (keqb alpha k1) then mtimes alpha Ct m1 else m1).
  assert (S2 : (forall i j, (i < acs C)%nat -> (j < ars C)%nat -> m2 (mloc Ct i j) = kmul alpha (m1 (mloc Ct i j))) /\
               (forall l, ~ in_mat Ct l -> m2 l = m1 l)).
  { unfold m2. destruct (keqb alpha k1) eqn:E1; cbn [negb].
    - apply keqb_eq in E1. subst alpha. split; [intros; ring|auto].
    - exact (mtimes_spec alpha Ct m1 (mtmp_inj _ _ _)). }
  destruct S2 as [P2 Q2].
  destruct (madd_spec add Ct C m2 HC) as [P3 Q3]; [cbn [ab Ct mtmp]; lia|].
  exists (madd add Ct C m2). split; [reflexivity|].
  assert (Old : forall l, fst l <> 5%nat -> m2 l = m l).
  { intros l Hl. rewrite Q2, Q1, Z2 by (apply blk_not_in; exact Hl). reflexivity. }
  split.
  - intros i j Hi Hj. rewrite P3 by auto. f_equal.
    + destruct add; [apply Old; cbn [fst mloc]; lia|reflexivity].
    + change (mget m2 Ct i j) with (m2 (mloc Ct i j)). rewrite P2, P1, Z1 by auto. f_equal.
      rewrite (mm_ext m (mzero Ct m)); [ring| |]; intros q Hq; apply Z2, blk_not_in; cbn [fst mloc ab Ct mtmp]; lia.
  - intros l Hl Hn. rewrite Q3 by auto. apply Old. lia.
Qed.

Lemma CCC_spec (add : bool) alpha A B C m :
  minj C -> (ab C < 5)%nat -> (ab A < 5)%nat -> (ab B < 5)%nat ->
  asi A = 1 -> asi B = 1 -> (0 < ars C)%nat -> (0 < ars A)%nat ->
  exists m2, CCCMultMM add alpha A B C m = Some m2 /\ prod_post add alpha A B C m m2.
Proof.
  intros HC Hb HA HB SA SB HN HK. apply (DoSimple_spec _ add alpha A B C m); auto.
  intro m'. rewrite SA, SB. apply RecCxC_spec; auto; cbn [asj mtmp mptr fst ab]; lia.
Qed.
Lemma CRC_spec (add : bool) alpha A B C m :
  minj C -> (ab C < 5)%nat -> (ab A < 5)%nat -> (ab B < 5)%nat ->
  asi A = 1 -> asj B = 1 -> (0 < ars C)%nat -> (0 < ars A)%nat ->
  exists m2, CRCMultMM add alpha A B C m = Some m2 /\ prod_post add alpha A B C m m2.
Proof.
  intros HC Hb HA HB SA SB HN HK. apply (DoSimple_spec _ add alpha A B C m); auto.
  intro m'. rewrite SA, SB. apply RecCxC_spec; auto; cbn [asj mtmp mptr fst ab]; lia.
Qed.
Lemma RCC_spec (add : bool) alpha A B C m :
  minj C -> (ab C < 5)%nat -> (ab A < 5)%nat -> (ab B < 5)%nat ->
  asj A = 1 -> asi B = 1 -> (0 < acs C)%nat -> (0 < ars C)%nat ->
  exists m2, RCCMultMM add alpha A B C m = Some m2 /\ prod_post add alpha A B C m m2.
Proof.
  intros HC Hb HA HB SA SB HM HN. apply (DoSimple_spec _ add alpha A B C m); auto.
  intro m'. rewrite SA, SB. apply RecRCC_spec; auto; cbn [asj mtmp mptr fst ab]; lia.
Qed.
End Proofs.
