(** Proofs about MatMat.v: the blocked algorithm. *)
From Coq Require Import ZArith Lia Bool List Ring Arith.
From Verif Require Import Base Scal ScalC MatMem MatVec MatVecProofs MatMat MatMatProofs.
Import ListNotations.
Open Scope Z_scope.

Section Block.
Context {K : scal}.
Add Ring Kring3 : (kring K).
Variables (KB : nat) (rnd : nat -> nat) (pa pb : K -> K) (upd : K -> K -> K) (A B C : mat) (m0 : hmem K).
Hypothesis KB0 : (0 < KB)%nat.
Hypothesis rnd_ge : forall k, (k <= rnd k)%nat.
Hypothesis rnd_KB : rnd KB = KB.
Hypothesis HA : (ab A < 5)%nat.
Hypothesis HB : (ab B < 5)%nat.
Hypothesis HC : (ab C < 5)%nat.
Hypothesis injC : minj C.
Hypothesis SA : acs A = acs C.
Hypothesis SB : ars B = ars C.
Hypothesis SK : acs B = ars A.
Hypothesis DA : mm_disj A C.
Hypothesis DB : mm_disj B C.
Implicit Types (m : hmem K).

Notation k := (ars A).
Notation Kb := (k / KB)%nat.
Notation Kc := (k - k / KB * KB)%nat.
Notation Ktot := (Ktot KB rnd (ars A)).

(** Chunks of the inner dimension: Kb of width KB, then one of width Kc. *)
Definition nch : nat := if (0 <? Kc)%nat then S Kb else Kb.
Definition len (t : nat) : nat := if (t <? Kb)%nat then KB else Kc.
Definition str (t : nat) : nat := if (t <? Kb)%nat then KB else rnd Kc.

Lemma Kb_le : (Kb * KB <= k)%nat.
Proof. rewrite Nat.mul_comm. apply Nat.mul_div_le. lia. Qed.
Lemma len_str t : (len t <= str t)%nat.
Proof. unfold len, str. destruct (t <? Kb)%nat; [lia|apply rnd_ge]. Qed.
Lemma rnd_len t : rnd (len t) = str t.
Proof. unfold len, str. destruct (t <? Kb)%nat; [exact rnd_KB|reflexivity]. Qed.
(** The first k indices covered by the first t chunks. *)
Definition upk (t : nat) : nat := if (t <=? Kb)%nat then (t * KB)%nat else k.
Lemma upk_S t : (t < nch)%nat -> upk (S t) = (t * KB + len t)%nat /\ upk t = (t * KB)%nat /\ (t * KB + len t <= k)%nat.
Proof.
  unfold nch, upk, len. pose proof Kb_le as H. intro Ht.
  destruct (Nat.ltb_spec 0 Kc); destruct (Nat.leb_spec (S t) Kb); destruct (Nat.ltb_spec t Kb);
    destruct (Nat.leb_spec t Kb); try lia; try nia.
Qed.
Lemma upk_nch : upk nch = k.
Proof.
  unfold upk, nch. pose proof Kb_le. destruct (Nat.ltb_spec 0 Kc).
  - destruct (Nat.leb_spec (S Kb) Kb); lia.
  - destruct (Nat.leb_spec Kb Kb); lia.
Qed.

(** Packed copies of MB rows of A from row i1, of NB columns of B from column j1. *)
Definition pkA m (i1 MB : nat) (Ap : Z) (n : nat) : Prop :=
  forall t i q, (t < n)%nat -> (i < MB)%nat -> (q < len t)%nat ->
    m (6%nat, Ap + Z.of_nat (t * (MB * KB)) + Z.of_nat (i * str t + q)) = pa (m0 (mloc A (i1 + i) (t * KB + q))).
Definition pkB m (j1 NB : nat) (Bp : Z) (n : nat) : Prop :=
  forall t j q, (t < n)%nat -> (j < NB)%nat -> (q < len t)%nat ->
    m (7%nat, Bp + Z.of_nat (t * (NB * KB)) + Z.of_nat (j * str t + q)) = pb (m0 (mloc B (t * KB + q) (j1 + j))).

Definition bprod (i j n : nat) : K :=
  sum n (fun q => kmul (pa (m0 (mloc A i q))) (pb (m0 (mloc B q j)))).

(** Outside C and the scratch blocks nothing has changed. *)
Definition clean m : Prop := forall l, (fst l < 5)%nat -> ~ in_mat C l -> m l = m0 l.

Lemma packA_spec st i1 k1 M n Ap m : (n <= st)%nat -> 
  let m2 := packA pa st A i1 k1 M n Ap m in
  (forall i q, (i < M)%nat -> (q < n)%nat ->
     m2 (6%nat, Ap + Z.of_nat (i * st + q)) = pa (m (mloc A (i1 + i) (k1 + q)))) /\
  (forall l, (forall i q, (i < M)%nat -> (q < n)%nat -> l <> (6%nat, Ap + Z.of_nat (i * st + q))) -> m2 l = m l).
Proof.
  intros Hn. unfold packA.
  apply (upto2_scatter (fun i q => (6%nat, Ap + Z.of_nat (i * st + q)))
           (fun i q => pa (m (mloc A (i1 + i) (k1 + q)))) M n).
  - intros i q i' q' Hi Hq Hi' Hq' E. apply (f_equal snd) in E. cbn [snd] in E.
    assert (i * st + q = i' * st + q')%nat by lia. assert (i = i') by nia. subst. split; [auto|lia].
  - intros i q m' Hi Hq Hm'. rewrite (Hm' (mloc A _ _)); [reflexivity|].
    intros i' q' _ _ E. apply (f_equal fst) in E. cbn [fst mloc] in E. lia.
Qed.
Lemma packB_spec st k1 j1 n N Bp m : (n <= st)%nat ->
  let m2 := packB pb st B k1 j1 n N Bp m in
  (forall j q, (j < N)%nat -> (q < n)%nat ->
     m2 (7%nat, Bp + Z.of_nat (j * st + q)) = pb (m (mloc B (k1 + q) (j1 + j)))) /\
  (forall l, (forall j q, (j < N)%nat -> (q < n)%nat -> l <> (7%nat, Bp + Z.of_nat (j * st + q))) -> m2 l = m l).
Proof.
  intros Hn. unfold packB.
  destruct (upto2_scatter (fun q j => (7%nat, Bp + Z.of_nat (j * st + q)))
           (fun q j => pb (m (mloc B (k1 + q) (j1 + j)))) n N
           (fun j q m => hset m (7%nat, Bp + Z.of_nat (j * st + q)) (pb (m (mloc B (k1 + q) (j1 + j))))) m) as [P Q].
  - intros q i q' i' Hq Hi Hq' Hi' E. apply (f_equal snd) in E. cbn [snd] in E.
    assert (i * st + q = i' * st + q')%nat by lia. assert (i = i') by nia. subst. split; [lia|auto].
  - intros q i m' Hq Hi Hm'. rewrite (Hm' (mloc B _ _)); [reflexivity|].
    intros i' q' _ _ E. apply (f_equal fst) in E. cbn [fst mloc] in E. lia.
  - split; [intros; apply P; auto|]. intros l Hl. apply Q. intros q j Hq Hj. apply Hl; auto.
Qed.

Lemma kernel_spec M N n Ap Bp m :
  let m2 := kernel rnd M N n Ap Bp m in
  (forall i j, (i < M)%nat -> (j < N)%nat ->
     m2 (8%nat, Z.of_nat (i + j * M)) = kadd (m (8%nat, Z.of_nat (i + j * M)))
       (sum n (fun q => kmul (m (6%nat, Ap + Z.of_nat (i * rnd n + q))) (m (7%nat, Bp + Z.of_nat (j * rnd n + q)))))) /\
  (forall l, fst l <> 8%nat -> m2 l = m l).
Proof.
  unfold kernel. cbv zeta.
  destruct (upto2_scatter (fun i j => (8%nat, Z.of_nat (i + j * M)))
    (fun i j => kadd (m (8%nat, Z.of_nat (i + j * M)))
       (sum n (fun q => kmul (m (6%nat, Ap + Z.of_nat (i * rnd n + q))) (m (7%nat, Bp + Z.of_nat (j * rnd n + q)))))) M N
    (fun j i m => hset m (8%nat, Z.of_nat (i + j * M)) (kadd (m (8%nat, Z.of_nat (i + j * M)))
       (sum n (fun q => kmul (m (6%nat, Ap + Z.of_nat (i * rnd n + q))) (m (7%nat, Bp + Z.of_nat (j * rnd n + q))))))) m) as [P Q].
  - intros i j i' j' Hi Hj Hi' Hj' E. apply (f_equal snd) in E. cbn [snd] in E.
    assert (i + j * M = i' + j' * M)%nat by lia. assert (j = j') by nia. subst. split; [lia|auto].
  - intros i j m' Hi Hj Hm'. rewrite (Hm' (8%nat, _)).
    + f_equal. f_equal. apply sum_ext. intros q Hq.
      rewrite (Hm' (6%nat, _)), (Hm' (7%nat, _)); [reflexivity| |]; intros i' j' _ _ E; discriminate (f_equal fst E).
    + intros i' j' Hi' Hj' E. apply (f_equal snd) in E. cbn [snd] in E.
      assert (i + j * M = i' + j' * M)%nat by lia. assert (j = j') by nia. lia.
  - split; [exact P|]. intros l Hl. apply Q. intros i j _ _ E. apply Hl. rewrite E. reflexivity.
Qed.

(** One step of SingleBlockMultMM's loop over the inner dimension. *)
Definition chunk (i1 j1 MB NB : nat) (Ap Bp : Z) (fA fB : bool) (t : nat) m : hmem K :=
  let Ap := Ap + Z.of_nat (t * (MB * KB)) in
  let Bp := Bp + Z.of_nat (t * (NB * KB)) in
  let m := if fA then packA pa (str t) A i1 (t * KB) MB (len t) Ap m else m in
  let m := if fB then packB pb (str t) B (t * KB) j1 (len t) NB Bp m else m in
  kernel rnd MB NB (len t) Ap Bp m.

Lemma SingleBlock_chunks i1 j1 MB NB Ap Bp fA fB m :
  SingleBlock KB rnd pa pb upd A B C i1 j1 MB NB (MB * KB) (NB * KB) Ap Bp fA fB m =
  upto NB (fun j => upto MB (fun i m =>
    hset m (mloc C (i1 + i) (j1 + j))
      (upd (m (mloc C (i1 + i) (j1 + j))) (m (8%nat, Z.of_nat (i + j * MB))))))
    (upto nch (chunk i1 j1 MB NB Ap Bp fA fB)
       (upto 256 (fun i m => hset m (8%nat, Z.of_nat i) k0) m)).
Proof.
  unfold SingleBlock. cbv zeta. f_equal.
  set (z := upto 256 _ m). clearbody z.
  assert (E : upto Kb (chunk i1 j1 MB NB Ap Bp fA fB) z =
    upto Kb (fun t m =>
      kernel rnd MB NB KB (Ap + Z.of_nat (t * (MB * KB))) (Bp + Z.of_nat (t * (NB * KB)))
        (if fB then packB pb KB B (t * KB) j1 KB NB (Bp + Z.of_nat (t * (NB * KB)))
           (if fA then packA pa KB A i1 (t * KB) MB KB (Ap + Z.of_nat (t * (MB * KB))) m else m)
         else (if fA then packA pa KB A i1 (t * KB) MB KB (Ap + Z.of_nat (t * (MB * KB))) m else m))) z).
  { apply upto_ext. intros t m' Ht. unfold chunk, len, str. cbv zeta.
    rewrite (proj2 (Nat.ltb_lt t Kb) Ht). reflexivity. }
  rewrite <- E. unfold nch. destruct (0 <? Kc)%nat; [|reflexivity].
  cbn [upto]. set (w := upto Kb _ z). clearbody w. unfold chunk, len, str. cbv zeta.
  rewrite Nat.ltb_irrefl. reflexivity.
Qed.

Lemma off_chunk M t i q : (t < nch)%nat -> (i < M)%nat -> (q < len t)%nat ->
  (t * (M * KB) + (i * str t + q) < M * Ktot)%nat /\
  ((t < Kb)%nat -> (t * (M * KB) + (i * str t + q) < (t + 1) * (M * KB))%nat).
Proof.
  intros Ht Hi Hq. pose proof (len_str t) as L. pose proof Kb_le as H.
  assert (Q : (i * str t + q < M * str t)%nat) by nia.
  revert Q L. unfold nch, str, MatMat.Ktot in *. destruct (Nat.ltb_spec t Kb) as [H1|H1]; intros Q L.
  - split; [|intros _; nia].
    assert (t * (M * KB) + M * KB <= Kb * (M * KB))%nat by nia. nia.
  - destruct (Nat.ltb_spec 0 Kc); [|lia]. assert (t = Kb) by lia. subst t. split; [|lia]. nia.
Qed.

Section Single.
Variables (i1 j1 MB NB : nat) (Ap Bp : Z) (fA fB : bool) (m1 : hmem K).
Hypothesis MB16 : (MB <= 16)%nat.
Hypothesis NB16 : (NB <= 16)%nat.
Hypothesis RI : (i1 + MB <= acs C)%nat.
Hypothesis RJ : (j1 + NB <= ars C)%nat.
Hypothesis Cl : clean m1.
Hypothesis PA0 : fA = true \/ pkA m1 i1 MB Ap nch.
Hypothesis PB0 : fB = true \/ pkB m1 j1 NB Bp nch.

Definition sinv (t : nat) m : Prop :=
  pkA m i1 MB Ap (if fA then t else nch) /\ pkB m j1 NB Bp (if fB then t else nch) /\
  (forall l, (fst l < 5)%nat -> m l = m1 l) /\
  (forall z, z < Ap \/ Ap + Z.of_nat (MB * Ktot) <= z -> m (6%nat, z) = m1 (6%nat, z)) /\
  (forall z, z < Bp \/ Bp + Z.of_nat (NB * Ktot) <= z -> m (7%nat, z) = m1 (7%nat, z)) /\
  (forall i j, (i < MB)%nat -> (j < NB)%nat ->
     m (8%nat, Z.of_nat (i + j * MB)) = bprod (i1 + i) (j1 + j) (upk t)).

Lemma srcA m i q : (forall l, (fst l < 5)%nat -> m l = m1 l) -> (i < MB)%nat -> (q < k)%nat ->
  m (mloc A (i1 + i) q) = m0 (mloc A (i1 + i) q).
Proof.
  intros Hm Hi Hq. rewrite Hm by exact HA. apply Cl; [exact HA|].
  intro Hin. apply (DA _) in Hin; [exact Hin|]. exists (i1 + i)%nat, q. split; [lia|split; [exact Hq|reflexivity]].
Qed.
Lemma srcB m q j : (forall l, (fst l < 5)%nat -> m l = m1 l) -> (j < NB)%nat -> (q < k)%nat ->
  m (mloc B q (j1 + j)) = m0 (mloc B q (j1 + j)).
Proof.
  intros Hm Hj Hq. rewrite Hm by exact HB. apply Cl; [exact HB|].
  intro Hin. apply (DB _) in Hin; [exact Hin|]. exists q, (j1 + j)%nat. split; [lia|split; [lia|reflexivity]].
Qed.

Lemma chunk_step t m : (t < nch)%nat -> sinv t m -> sinv (t + 1) (chunk i1 j1 MB NB Ap Bp fA fB t m).
Proof.
  intros Ht (IA & IB & I0 & I6 & I7 & I8).
  destruct (upk_S t Ht) as (U1 & U0 & UK). pose proof (len_str t) as LS.
  unfold chunk. cbv zeta.
  set (Ap' := Ap + Z.of_nat (t * (MB * KB))). set (Bp' := Bp + Z.of_nat (t * (NB * KB))).
  (* packing A *)
  set (ma := if fA then packA pa (str t) A i1 (t * KB) MB (len t) Ap' m else m).
  assert (XA : (forall i q, (i < MB)%nat -> (q < len t)%nat ->
                 ma (6%nat, Ap' + Z.of_nat (i * str t + q)) = pa (m0 (mloc A (i1 + i) (t * KB + q)))) /\
               pkA ma i1 MB Ap (if fA then (t + 1)%nat else nch) /\
               (forall l, fst l <> 6%nat -> ma l = m l) /\
               (forall z, z < Ap \/ Ap + Z.of_nat (MB * Ktot) <= z -> ma (6%nat, z) = m (6%nat, z))).
  { unfold ma. destruct fA.
    - destruct (packA_spec (str t) i1 (t * KB) MB (len t) Ap' m LS) as [P Q].
      assert (P' : forall i q, (i < MB)%nat -> (q < len t)%nat ->
        packA pa (str t) A i1 (t * KB) MB (len t) Ap' m (6%nat, Ap' + Z.of_nat (i * str t + q)) =
        pa (m0 (mloc A (i1 + i) (t * KB + q)))).
      { intros i q Hi Hq. rewrite P by auto. f_equal. apply srcA; auto. lia. }
      split; [exact P'|]. split; [|split].
      + intros t' i q Ht' Hi Hq. destruct (Nat.eq_dec t' t) as [->|Ne]; [apply P'; auto|].
        rewrite Q. { apply IA; auto; lia. }
        intros i' q' Hi' Hq' E. apply (f_equal snd) in E. cbn [snd] in E. unfold Ap' in E.
        assert (Ht2 : (t' < nch)%nat) by lia.
        assert (Ht3 : (t' < Kb)%nat) by (revert Ht; unfold nch; destruct (0 <? Kc)%nat; lia).
        destruct (off_chunk MB t' i q Ht2 Hi Hq) as [_ O]. specialize (O Ht3).
        assert ((t' + 1) * (MB * KB) <= t * (MB * KB))%nat by (apply Nat.mul_le_mono_r; lia). lia.
      + intros l Hl. apply Q. intros i q _ _ E. apply Hl. rewrite E. reflexivity.
      + intros z Hz. apply Q. intros i q Hi Hq E. apply (f_equal snd) in E. cbn [snd] in E. unfold Ap' in E.
        destruct (off_chunk MB t i q Ht Hi Hq) as [O _]. lia.
    - split; [|split; [|split]]; auto. intros i q Hi Hq. unfold Ap'. apply IA; auto. }
  destruct XA as (A1 & A2 & A3 & A4). clearbody ma.
  set (mb := if fB then packB pb (str t) B (t * KB) j1 (len t) NB Bp' ma else ma).
  assert (XB : (forall j q, (j < NB)%nat -> (q < len t)%nat ->
                 mb (7%nat, Bp' + Z.of_nat (j * str t + q)) = pb (m0 (mloc B (t * KB + q) (j1 + j)))) /\
               pkB mb j1 NB Bp (if fB then (t + 1)%nat else nch) /\
               (forall l, fst l <> 7%nat -> mb l = ma l) /\
               (forall z, z < Bp \/ Bp + Z.of_nat (NB * Ktot) <= z -> mb (7%nat, z) = m (7%nat, z))).
  { assert (IB' : pkB ma j1 NB Bp (if fB then t else nch)).
    { intros t' j q Ht' Hj Hq. rewrite A3 by discriminate. apply IB; auto. }
    unfold mb. destruct fB.
    - destruct (packB_spec (str t) (t * KB) j1 (len t) NB Bp' ma LS) as [P Q].
      assert (P' : forall j q, (j < NB)%nat -> (q < len t)%nat ->
        packB pb (str t) B (t * KB) j1 (len t) NB Bp' ma (7%nat, Bp' + Z.of_nat (j * str t + q)) =
        pb (m0 (mloc B (t * KB + q) (j1 + j)))).
      { intros j q Hj Hq. rewrite P by auto. f_equal. apply srcB; auto; [|lia].
        intros l Hl. rewrite A3 by lia. apply I0. exact Hl. }
      split; [exact P'|]. split; [|split].
      + intros t' i q Ht' Hi Hq. destruct (Nat.eq_dec t' t) as [->|Ne]; [apply P'; auto|].
        rewrite Q. { apply IB'; auto; lia. }
        intros i' q' Hi' Hq' E. apply (f_equal snd) in E. cbn [snd] in E. unfold Bp' in E.
        assert (Ht2 : (t' < nch)%nat) by lia.
        assert (Ht3 : (t' < Kb)%nat) by (revert Ht; unfold nch; destruct (0 <? Kc)%nat; lia).
        destruct (off_chunk NB t' i q Ht2 Hi Hq) as [_ O]. specialize (O Ht3).
        assert ((t' + 1) * (NB * KB) <= t * (NB * KB))%nat by (apply Nat.mul_le_mono_r; lia). lia.
      + intros l Hl. apply Q. intros i q _ _ E. apply Hl. rewrite E. reflexivity.
      + intros z Hz. rewrite Q.
        * apply A3. discriminate.
        * intros i q Hi Hq E. apply (f_equal snd) in E. cbn [snd] in E. unfold Bp' in E.
          destruct (off_chunk NB t i q Ht Hi Hq) as [O _]. lia.
    - split; [|split; [|split]]; auto.
      + intros i q Hi Hq. unfold Bp'. apply IB'; auto.
      + intros z Hz. apply A3. discriminate. }
  destruct XB as (B1 & B2 & B3 & B4). clearbody mb.
  destruct (kernel_spec MB NB (len t) Ap' Bp' mb) as [P Q].
  set (mk := kernel rnd MB NB (len t) Ap' Bp' mb) in *. clearbody mk.
  refine (conj _ (conj _ (conj _ (conj _ (conj _ _))))).
  - intros t' i q Ht' Hi Hq. rewrite Q by discriminate. rewrite B3 by discriminate. apply A2; auto.
  - intros t' i q Ht' Hi Hq. rewrite Q by discriminate. apply B2; auto.
  - intros l Hl. rewrite Q, B3, A3, I0 by lia. reflexivity.
  - intros z Hz. rewrite Q, B3 by discriminate. rewrite A4 by auto. apply I6. exact Hz.
  - intros z Hz. rewrite Q by discriminate. rewrite B4 by auto. apply I7. exact Hz.
  - intros i j Hi Hj. rewrite P by auto.
    rewrite B3, A3, I8 by (auto; discriminate). rewrite U0. replace (t + 1)%nat with (S t) by lia. rewrite U1.
    unfold bprod. rewrite sum_app. f_equal. apply sum_ext. intros q Hq.
    rewrite rnd_len. rewrite B1, B3, A1 by (auto; discriminate). reflexivity.
Qed.

Lemma single_spec :
  let m2 := SingleBlock KB rnd pa pb upd A B C i1 j1 MB NB (MB * KB) (NB * KB) Ap Bp fA fB m1 in
  pkA m2 i1 MB Ap nch /\ pkB m2 j1 NB Bp nch /\
  (forall z, z < Ap \/ Ap + Z.of_nat (MB * Ktot) <= z -> m2 (6%nat, z) = m1 (6%nat, z)) /\
  (forall z, z < Bp \/ Bp + Z.of_nat (NB * Ktot) <= z -> m2 (7%nat, z) = m1 (7%nat, z)) /\
  (forall i j, (i < MB)%nat -> (j < NB)%nat ->
     m2 (mloc C (i1 + i) (j1 + j)) = upd (m1 (mloc C (i1 + i) (j1 + j))) (bprod (i1 + i) (j1 + j) k)) /\
  (forall l, (fst l < 5)%nat ->
     (forall i j, (i < MB)%nat -> (j < NB)%nat -> l <> mloc C (i1 + i) (j1 + j)) -> m2 l = m1 l).
Proof.
  cbv zeta. rewrite SingleBlock_chunks.
  destruct (upto_scatter (fun i => (8%nat, Z.of_nat i)) (fun _ => k0) 256
    (fun i m => hset m (8%nat, Z.of_nat i) k0) m1) as [Z1 Z2].
  { intros i j _ _ E. apply (f_equal snd) in E. cbn [snd] in E. lia. }
  { reflexivity. }
  set (mz := upto 256 _ m1) in *.
  assert (Z3 : forall l, fst l <> 8%nat -> mz l = m1 l).
  { intros l Hl. apply Z2. intros i _ E. apply Hl. rewrite E. reflexivity. }
  assert (S0 : sinv 0 mz).
  { refine (conj _ (conj _ (conj _ (conj _ (conj _ _))))).
    - intros t i q Ht Hi Hq. rewrite Z3 by discriminate. destruct fA; [lia|].
      destruct PA0 as [E|E]; [discriminate|apply E; auto].
    - intros t i q Ht Hi Hq. rewrite Z3 by discriminate. destruct fB; [lia|].
      destruct PB0 as [E|E]; [discriminate|apply E; auto].
    - intros l Hl. apply Z3. lia.
    - intros z _. apply Z3. discriminate.
    - intros z _. apply Z3. discriminate.
    - intros i j Hi Hj. rewrite Z1; [reflexivity|]. nia. }
  clearbody mz.
  assert (SN : sinv nch (upto nch (chunk i1 j1 MB NB Ap Bp fA fB) mz)).
  { apply (upto_inv sinv); [exact S0|]. intros t m Ht. apply chunk_step. exact Ht. }
  set (mc := upto nch _ mz) in *. clearbody mc.
  destruct SN as (IA & IB & I0 & I6 & I7 & I8). rewrite upk_nch in I8.
  destruct (upto2_scatter (fun i j => mloc C (i1 + i) (j1 + j))
    (fun i j => upd (m1 (mloc C (i1 + i) (j1 + j))) (bprod (i1 + i) (j1 + j) k)) MB NB
    (fun j i m => hset m (mloc C (i1 + i) (j1 + j))
      (upd (m (mloc C (i1 + i) (j1 + j))) (m (8%nat, Z.of_nat (i + j * MB))))) mc) as [P Q].
  { intros i j i' j' Hi Hj Hi' Hj' E. apply injC in E; lia. }
  { intros i j m' Hi Hj Hm'. f_equal. rewrite (Hm' (8%nat, _)), (Hm' (mloc C _ _)).
    - rewrite I8 by auto. rewrite I0 by exact HC. reflexivity.
    - intros i' j' Hi' Hj' E. apply injC in E; lia.
    - intros i' j' _ _ E. apply (f_equal fst) in E. cbn [fst mloc] in E. lia. }
  assert (Q' : forall l, fst l <> ab C -> upto NB (fun j => upto MB (fun i m => hset m (mloc C (i1 + i) (j1 + j))
      (upd (m (mloc C (i1 + i) (j1 + j))) (m (8%nat, Z.of_nat (i + j * MB)))))) mc l = mc l).
  { intros l Hl. apply Q. intros i j _ _ E. apply Hl. rewrite E. reflexivity. }
  refine (conj _ (conj _ (conj _ (conj _ (conj _ _))))).
  - intros t i q Ht Hi Hq. rewrite Q' by (cbn [fst]; lia). apply IA; auto. destruct fA; auto.
  - intros t i q Ht Hi Hq. rewrite Q' by (cbn [fst]; lia). apply IB; auto. destruct fB; auto.
  - intros z Hz. rewrite Q' by (cbn [fst]; lia). apply I6. exact Hz.
  - intros z Hz. rewrite Q' by (cbn [fst]; lia). apply I7. exact Hz.
  - exact P.
  - intros l Hl Hn. rewrite Q by auto. apply I0. exact Hl.
Qed.
End Single.

(** *** The outer loops *)
(** Width of the r-th block of n, and the number of blocks. *)
Definition wid (n r : nat) : nat := if (r <? n / 16)%nat then 16%nat else (n - n / 16 * 16)%nat.
Definition nblk (n : nat) : nat := if (0 <? n - n / 16 * 16)%nat then S (n / 16) else (n / 16)%nat.
Lemma d16 n : (n / 16 * 16 <= n < n / 16 * 16 + 16)%nat.
Proof. pose proof (Nat.div_mod n 16 ltac:(lia)). pose proof (Nat.mod_upper_bound n 16 ltac:(lia)). lia. Qed.
Lemma wid_le n r : (wid n r <= 16)%nat.
Proof. unfold wid. pose proof (d16 n). destruct (r <? n / 16)%nat; lia. Qed.
Lemma wid_in n r : (r < nblk n)%nat -> (r * 16 + wid n r <= n)%nat.
Proof.
  unfold nblk, wid. pose proof (d16 n). intro Hr.
  destruct (Nat.ltb_spec 0 (n - n / 16 * 16)); destruct (Nat.ltb_spec r (n / 16)); lia.
Qed.
Lemma blk_of n i : (i < n)%nat -> (i / 16 < nblk n)%nat /\ (i - i / 16 * 16 < wid n (i / 16))%nat.
Proof.
  intro Hi. pose proof (d16 n). pose proof (d16 i). unfold nblk, wid.
  destruct (Nat.ltb_spec 0 (n - n / 16 * 16)); destruct (Nat.ltb_spec (i / 16) (n / 16)); lia.
Qed.
Lemma blk_eq r i : (i < 16)%nat -> ((r * 16 + i) / 16 = r)%nat.
Proof. intro H. rewrite Nat.add_comm, Nat.div_add by lia. rewrite Nat.div_small by exact H. lia. Qed.

Definition done (J R i j : nat) : Prop := (j / 16 < J)%nat \/ ((j / 16 = J)%nat /\ (i / 16 < R)%nat).
Definition cells (D : nat -> nat -> Prop) m : Prop :=
  forall i j, (i < acs C)%nat -> (j < ars C)%nat ->
    (D i j -> m (mloc C i j) = upd (m0 (mloc C i j)) (bprod i j k)) /\
    (~ D i j -> m (mloc C i j) = m0 (mloc C i j)).

(** Updating block (r,s) of C. *)
Lemma cells_step D D' r s m m2 :
  (r < nblk (acs C))%nat -> (s < nblk (ars C))%nat ->
  (forall i j, (i < acs C)%nat -> (j < ars C)%nat -> D' i j <-> D i j \/ ((i / 16 = r)%nat /\ (j / 16 = s)%nat)) ->
  (forall i j, (i < acs C)%nat -> (j < ars C)%nat -> (i / 16 = r)%nat -> (j / 16 = s)%nat -> ~ D i j) ->
  cells D m ->
  (forall i j, (i < wid (acs C) r)%nat -> (j < wid (ars C) s)%nat ->
     m2 (mloc C (r * 16 + i) (s * 16 + j)) =
       upd (m (mloc C (r * 16 + i) (s * 16 + j))) (bprod (r * 16 + i) (s * 16 + j) k)) ->
  (forall l, (fst l < 5)%nat ->
     (forall i j, (i < wid (acs C) r)%nat -> (j < wid (ars C) s)%nat -> l <> mloc C (r * 16 + i) (s * 16 + j)) ->
     m2 l = m l) ->
  clean m -> cells D' m2 /\ clean m2.
Proof.
  intros Hr Hs HD Hnew Hc P Q Cl. split.
  - intros i j Hi Hj. destruct (Hc i j Hi Hj) as [C1 C2].
    destruct (Nat.eq_dec (i / 16) r) as [Er|Nr]; [destruct (Nat.eq_dec (j / 16) s) as [Es|Ns]|].
    + destruct (blk_of _ _ Hi) as [_ Wi]. destruct (blk_of _ _ Hj) as [_ Wj]. rewrite Er in Wi. rewrite Es in Wj.
      pose proof (d16 i). pose proof (d16 j).
      specialize (P (i - r * 16)%nat (j - s * 16)%nat Wi Wj).
      replace (r * 16 + (i - r * 16))%nat with i in P by lia.
      replace (s * 16 + (j - s * 16))%nat with j in P by lia.
      split.
      * intros _. rewrite P. f_equal. apply C2. apply Hnew; auto.
      * intro N. exfalso. apply N. apply HD; auto.
    + assert (E : m2 (mloc C i j) = m (mloc C i j)).
      { apply Q; [exact HC|]. intros i' j' Hi' Hj' E. pose proof (wid_in _ _ Hr). pose proof (wid_in _ _ Hs).
        apply injC in E; try lia. destruct E as [_ E]. apply Ns. rewrite E. apply blk_eq.
        pose proof (wid_le (ars C) s). lia. }
      rewrite E. split; intro H.
      * apply C1. apply HD in H; auto. tauto.
      * apply C2. intro H'. apply H. apply HD; auto.
    + assert (E : m2 (mloc C i j) = m (mloc C i j)).
      { apply Q; [exact HC|]. intros i' j' Hi' Hj' E. pose proof (wid_in _ _ Hr). pose proof (wid_in _ _ Hs).
        apply injC in E; try lia. destruct E as [E _]. apply Nr. rewrite E. apply blk_eq.
        pose proof (wid_le (acs C) r). lia. }
      rewrite E. split; intro H.
      * apply C1. apply HD in H; auto. tauto.
      * apply C2. intro H'. apply H. apply HD; auto.
  - intros l Hl Hn. rewrite Q; auto.
    intros i j Hi Hj E. apply Hn. exists (r * 16 + i)%nat, (s * 16 + j)%nat.
    pose proof (wid_in _ _ Hr). pose proof (wid_in _ _ Hs). split; [lia|split; [lia|exact E]].
Qed.

(** Loop over columns of blocks, with all of A kept packed. *)
Definition inv1 (J R : nat) m : Prop :=
  clean m /\ cells (done J R) m /\
  (forall r, (r < (if Nat.eqb J 0 then R else nblk (acs C)))%nat ->
     pkA m (r * 16) (wid (acs C) r) (Z.of_nat (r * (16 * Ktot))) nch) /\
  ((0 < R)%nat -> pkB m (J * 16) (wid (ars C) J) 0 nch).

Lemma step1 J R m : (J < nblk (ars C))%nat -> (R < nblk (acs C))%nat -> inv1 J R m ->
  inv1 J (R + 1) (SingleBlock KB rnd pa pb upd A B C (R * 16) (J * 16) (wid (acs C) R) (wid (ars C) J)
    (wid (acs C) R * KB) (wid (ars C) J * KB) (Z.of_nat (R * (16 * Ktot))) 0 (Nat.eqb J 0) (Nat.eqb R 0) m).
Proof.
  intros HJ HR (Cl & Ce & PkA & PkB).
  destruct (single_spec (R * 16) (J * 16) (wid (acs C) R) (wid (ars C) J) (Z.of_nat (R * (16 * Ktot))) 0
    (Nat.eqb J 0) (Nat.eqb R 0) m) as (A1 & B1 & F6 & F7 & P & Q); auto using wid_le, wid_in.
  { destruct (Nat.eqb_spec J 0); [left; reflexivity|right]. apply PkA. exact HR. }
  { destruct (Nat.eqb_spec R 0); [left; reflexivity|right]. apply PkB. lia. }
  set (m2 := SingleBlock _ _ _ _ _ _ _ _ _ _ _ _ _ _ _ _ _ _ m) in *. clearbody m2.
  destruct (cells_step (done J R) (done J (R + 1)) R J m m2) as [D1 D2]; auto.
  { intros i j _ _. unfold done. lia. }
  { intros i j _ _. unfold done. lia. }
  split; [exact D2|]. split; [exact D1|]. split.
  - intros r Hr. destruct (Nat.eq_dec r R) as [->|Ne]; [exact A1|].
    assert (Old : pkA m (r * 16) (wid (acs C) r) (Z.of_nat (r * (16 * Ktot))) nch).
    { apply PkA. revert Hr. destruct (Nat.eqb J 0); lia. }
    intros t i q Ht Hi Hq. rewrite F6. { apply Old; auto. }
    assert (Lr : (r < nblk (acs C))%nat) by (revert Hr; destruct (Nat.eqb J 0); lia).
    destruct (off_chunk (wid (acs C) r) t i q Ht Hi Hq) as [O _].
    pose proof (wid_le (acs C) r) as W. pose proof (wid_le (acs C) R) as W'.
    assert (Hle : (wid (acs C) r * Ktot <= 16 * Ktot)%nat) by (apply Nat.mul_le_mono_r; exact W).
    assert (Hle' : (wid (acs C) R * Ktot <= 16 * Ktot)%nat) by (apply Nat.mul_le_mono_r; exact W').
    destruct (Nat.lt_ge_cases r R) as [L|G].
    + left. assert ((r + 1) * (16 * Ktot) <= R * (16 * Ktot))%nat by (apply Nat.mul_le_mono_r; lia). lia.
    + right. assert ((R + 1) * (16 * Ktot) <= r * (16 * Ktot))%nat by (apply Nat.mul_le_mono_r; lia). lia.
  - intros _. exact B1.
Qed.

Lemma next1 J m : inv1 J (nblk (acs C)) m -> inv1 (J + 1) 0 m.
Proof.
  intros (Cl & Ce & PkA & PkB). split; [exact Cl|]. split; [|split].
  - intros i j Hi Hj. destruct (Ce i j Hi Hj) as [C1 C2]. destruct (blk_of _ _ Hi) as [Bi _]. unfold done in *.
    split; intro H; [apply C1|apply C2]; lia.
  - intros r Hr. apply PkA. revert Hr. replace (Nat.eqb (J + 1) 0) with false by (symmetry; apply Nat.eqb_neq; lia).
    destruct (Nat.eqb J 0); auto.
  - lia.
Qed.

(** Loop over rows of blocks, with all of B kept packed. *)
Definition done2 (I S i j : nat) : Prop := (i / 16 < I)%nat \/ ((i / 16 = I)%nat /\ (j / 16 < S)%nat).
Definition inv2 (I S : nat) m : Prop :=
  clean m /\ cells (done2 I S) m /\
  (forall r, (r < (if Nat.eqb I 0 then S else nblk (ars C)))%nat ->
     pkB m (r * 16) (wid (ars C) r) (Z.of_nat (r * (16 * Ktot))) nch) /\
  ((0 < S)%nat -> pkA m (I * 16) (wid (acs C) I) 0 nch).

Lemma step2 I S m : (I < nblk (acs C))%nat -> (S < nblk (ars C))%nat -> inv2 I S m ->
  inv2 I (S + 1) (SingleBlock KB rnd pa pb upd A B C (I * 16) (S * 16) (wid (acs C) I) (wid (ars C) S)
    (wid (acs C) I * KB) (wid (ars C) S * KB) 0 (Z.of_nat (S * (16 * Ktot))) (Nat.eqb S 0) (Nat.eqb I 0) m).
Proof.
  intros HI HS (Cl & Ce & PkB & PkA).
  destruct (single_spec (I * 16) (S * 16) (wid (acs C) I) (wid (ars C) S) 0 (Z.of_nat (S * (16 * Ktot)))
    (Nat.eqb S 0) (Nat.eqb I 0) m) as (A1 & B1 & F6 & F7 & P & Q); auto using wid_le, wid_in.
  { destruct (Nat.eqb_spec S 0); [left; reflexivity|right]. apply PkA. lia. }
  { destruct (Nat.eqb_spec I 0); [left; reflexivity|right]. apply PkB. exact HS. }
  set (m2 := SingleBlock _ _ _ _ _ _ _ _ _ _ _ _ _ _ _ _ _ _ m) in *. clearbody m2.
  destruct (cells_step (done2 I S) (done2 I (S + 1)) I S m m2) as [D1 D2]; auto.
  { intros i j _ _. unfold done2. lia. }
  { intros i j _ _. unfold done2. lia. }
  split; [exact D2|]. split; [exact D1|]. split.
  - intros r Hr. destruct (Nat.eq_dec r S) as [->|Ne]; [exact B1|].
    assert (Old : pkB m (r * 16) (wid (ars C) r) (Z.of_nat (r * (16 * Ktot))) nch).
    { apply PkB. revert Hr. destruct (Nat.eqb I 0); lia. }
    intros t i q Ht Hi Hq. rewrite F7. { apply Old; auto. }
    destruct (off_chunk (wid (ars C) r) t i q Ht Hi Hq) as [O _].
    pose proof (wid_le (ars C) r) as W. pose proof (wid_le (ars C) S) as W'.
    assert (Hle : (wid (ars C) r * Ktot <= 16 * Ktot)%nat) by (apply Nat.mul_le_mono_r; exact W).
    assert (Hle' : (wid (ars C) S * Ktot <= 16 * Ktot)%nat) by (apply Nat.mul_le_mono_r; exact W').
    destruct (Nat.lt_ge_cases r S) as [L|G].
    + left. assert ((r + 1) * (16 * Ktot) <= S * (16 * Ktot))%nat by (apply Nat.mul_le_mono_r; lia). lia.
    + right. assert ((S + 1) * (16 * Ktot) <= r * (16 * Ktot))%nat by (apply Nat.mul_le_mono_r; lia). lia.
  - intros _. exact A1.
Qed.

Lemma next2 I m : inv2 I (nblk (ars C)) m -> inv2 (I + 1) 0 m.
Proof.
  intros (Cl & Ce & PkB & PkA). split; [exact Cl|]. split; [|split].
  - intros i j Hi Hj. destruct (Ce i j Hi Hj) as [C1 C2]. destruct (blk_of _ _ Hj) as [Bj _]. unfold done2 in *.
    split; intro H; [apply C1|apply C2]; lia.
  - intros r Hr. apply PkB. revert Hr. replace (Nat.eqb (I + 1) 0) with false by (symmetry; apply Nat.eqb_neq; lia).
    destruct (Nat.eqb I 0); auto.
  - lia.
Qed.

(** A loop over the full blocks followed by the partial one. *)
Lemma two_loops (n : nat) (I : nat -> hmem K -> Prop) (f : nat -> hmem K -> hmem K) (g : hmem K -> hmem K) m :
  (forall r m, (r < nblk n)%nat -> I r m -> I (r + 1)%nat (if (r <? n / 16)%nat then f r m else g m)) ->
  I O m -> I (nblk n) (if (0 <? n - n / 16 * 16)%nat then g (upto (n / 16) f m) else upto (n / 16) f m).
Proof.
  intros Hs H0.
  assert (H1 : I (n / 16)%nat (upto (n / 16) f m)).
  { apply (upto_inv I); [exact H0|]. intros r s Hr Hi. specialize (Hs r s).
    rewrite (proj2 (Nat.ltb_lt _ _) Hr) in Hs. apply Hs; auto.
    unfold nblk. destruct (0 <? n - n / 16 * 16)%nat; lia. }
  unfold nblk in *. destruct (0 <? n - n / 16 * 16)%nat; [|exact H1].
  specialize (Hs (n / 16)%nat (upto (n / 16) f m) ltac:(lia) H1). rewrite Nat.ltb_irrefl in Hs.
  rewrite Nat.add_1_r in Hs. exact Hs.
Qed.

Lemma wid_full n r : (r < n / 16)%nat -> wid n r = 16%nat.
Proof. intro H. unfold wid. rewrite (proj2 (Nat.ltb_lt _ _) H). reflexivity. Qed.
Lemma wid_last n : wid n (n / 16) = (n - n / 16 * 16)%nat.
Proof. unfold wid. rewrite Nat.ltb_irrefl. reflexivity. Qed.
Lemma last_blk n r : (r < nblk n)%nat -> (n / 16 <= r)%nat -> r = (n / 16)%nat.
Proof. unfold nblk. destruct (0 <? n - n / 16 * 16)%nat; lia. Qed.

Lemma cells0 (D : nat -> nat -> Prop) : (forall i j, ~ D i j) -> cells D m0.
Proof. intros H i j _ _. split; [intro X; destruct (H _ _ X)|auto]. Qed.

Lemma blockcol_inv J NB m : (J < nblk (ars C))%nat -> NB = wid (ars C) J -> inv1 J 0 m ->
  inv1 (J + 1) 0 (blockcol KB rnd pa pb upd A B C (J * 16) NB (NB * KB) (Nat.eqb J 0) m).
Proof.
  intros HJ -> HI. apply next1. unfold blockcol. cbv zeta.
  apply (two_loops (acs C) (fun R m => inv1 J R m)
    (fun i => SingleBlock KB rnd pa pb upd A B C (i * 16) (J * 16) 16 (wid (ars C) J) (16 * KB) (wid (ars C) J * KB)
      (Z.of_nat (i * (16 * Ktot))) 0 (Nat.eqb J 0) (Nat.eqb i 0))
    (SingleBlock KB rnd pa pb upd A B C (acs C / 16 * 16) (J * 16) (acs C - acs C / 16 * 16) (wid (ars C) J)
      ((acs C - acs C / 16 * 16) * KB) (wid (ars C) J * KB)
      (Z.of_nat (acs C / 16 * (16 * Ktot))) 0 (Nat.eqb J 0) (Nat.eqb (acs C / 16) 0))); [|exact HI].
  intros R m' HR HI'. pose proof (step1 J R m' HJ HR HI') as S.
  destruct (Nat.ltb_spec R (acs C / 16)) as [LR|GR].
  - rewrite (wid_full (acs C) R LR) in S. exact S.
  - pose proof (last_blk _ _ HR GR) as E. subst R. rewrite (wid_last (acs C)) in S. exact S.
Qed.

Lemma blockrow_inv I MB m : (I < nblk (acs C))%nat -> MB = wid (acs C) I -> inv2 I 0 m ->
  inv2 (I + 1) 0 (blockrow KB rnd pa pb upd A B C (I * 16) MB (MB * KB) (Nat.eqb I 0) m).
Proof.
  intros HI -> HI0. apply next2. unfold blockrow. cbv zeta.
  apply (two_loops (ars C) (fun R m => inv2 I R m)
    (fun j => SingleBlock KB rnd pa pb upd A B C (I * 16) (j * 16) (wid (acs C) I) 16 (wid (acs C) I * KB) (16 * KB)
      0 (Z.of_nat (j * (16 * Ktot))) (Nat.eqb j 0) (Nat.eqb I 0))
    (SingleBlock KB rnd pa pb upd A B C (I * 16) (ars C / 16 * 16) (wid (acs C) I) (ars C - ars C / 16 * 16)
      (wid (acs C) I * KB) ((ars C - ars C / 16 * 16) * KB)
      0 (Z.of_nat (ars C / 16 * (16 * Ktot))) (Nat.eqb (ars C / 16) 0) (Nat.eqb I 0))); [|exact HI0].
  intros R m' HR HI'. pose proof (step2 I R m' HI HR HI') as S.
  destruct (Nat.ltb_spec R (ars C / 16)) as [LR|GR].
  - rewrite (wid_full (ars C) R LR) in S. exact S.
  - pose proof (last_blk _ _ HR GR) as E. subst R. rewrite (wid_last (ars C)) in S. exact S.
Qed.

Lemma DoBlock_1 : (acs C <= ars C)%nat -> inv1 (nblk (ars C)) 0 (DoBlock KB rnd pa pb upd A B C m0).
Proof.
  intro L. unfold DoBlock. cbv zeta. rewrite (proj2 (Nat.leb_le _ _) L).
  apply (two_loops (ars C) (fun J m => inv1 J 0 m)
    (fun j => blockcol KB rnd pa pb upd A B C (j * 16) 16 (16 * KB) (Nat.eqb j 0))
    (blockcol KB rnd pa pb upd A B C (ars C / 16 * 16) (ars C - ars C / 16 * 16)
       ((ars C - ars C / 16 * 16) * KB) (Nat.eqb (ars C / 16) 0))).
  - intros J m HJ HI. destruct (Nat.ltb_spec J (ars C / 16)) as [LJ|GJ].
    + apply blockcol_inv; auto. symmetry. apply wid_full. exact LJ.
    + pose proof (last_blk _ _ HJ GJ) as E. subst J. apply blockcol_inv; auto. symmetry. apply wid_last.
  - split; [intros l _ _; reflexivity|]. split; [|split].
    + apply cells0. intros i j. unfold done. lia.
    + cbn [Nat.eqb]. lia.
    + lia.
Qed.

Lemma DoBlock_2 : (ars C < acs C)%nat -> inv2 (nblk (acs C)) 0 (DoBlock KB rnd pa pb upd A B C m0).
Proof.
  intro L. unfold DoBlock. cbv zeta. rewrite (proj2 (Nat.leb_gt _ _) L).
  apply (two_loops (acs C) (fun I m => inv2 I 0 m)
    (fun i => blockrow KB rnd pa pb upd A B C (i * 16) 16 (16 * KB) (Nat.eqb i 0))
    (blockrow KB rnd pa pb upd A B C (acs C / 16 * 16) (acs C - acs C / 16 * 16)
       ((acs C - acs C / 16 * 16) * KB) (Nat.eqb (acs C / 16) 0))).
  - intros I m HI HI0. destruct (Nat.ltb_spec I (acs C / 16)) as [LI|GI].
    + apply blockrow_inv; auto. symmetry. apply wid_full. exact LI.
    + pose proof (last_blk _ _ HI GI) as E. subst I. apply blockrow_inv; auto. symmetry. apply wid_last.
  - split; [intros l _ _; reflexivity|]. split; [|split].
    + apply cells0. intros i j. unfold done2. lia.
    + cbn [Nat.eqb]. lia.
    + lia.
Qed.

Theorem DoBlock_spec :
  let m2 := DoBlock KB rnd pa pb upd A B C m0 in
  (forall i j, (i < acs C)%nat -> (j < ars C)%nat ->
     m2 (mloc C i j) = upd (m0 (mloc C i j)) (bprod i j k)) /\
  (forall l, (fst l < 5)%nat -> ~ in_mat C l -> m2 l = m0 l).
Proof.
  cbv zeta. destruct (Nat.le_gt_cases (acs C) (ars C)) as [L|G].
  - destruct (DoBlock_1 L) as (Cl & Ce & _). split; [|exact Cl].
    intros i j Hi Hj. apply (Ce i j Hi Hj). left. apply blk_of. exact Hj.
  - destruct (DoBlock_2 G) as (Cl & Ce & _). split; [|exact Cl].
    intros i j Hi Hj. apply (Ce i j Hi Hj). left. apply blk_of. exact Hi.
Qed.
End Block.
