(** Proofs about the rank-k updates of SymRank.v. *)
From Coq Require Import ZArith Lia Bool List Ring Arith.
From Verif Require Import Base Scal MatMem MatVec MatVecProofs SymRank SymRankProofs.
Open Scope Z_scope.

Section Proofs.
Context {K : scal}.
Add Ring Kr : (kring K).
Implicit Types (m : hmem K) (x : vec) (A X : mat) (alpha : K).

Lemma mloc_rr X a b i j : mloc (rrange X a b) i j = mloc X (a + i) j.
Proof. unfold mloc, rrange. cbn. f_equal. lia. Qed.
Lemma mloc_cr X a b i j : mloc (crange X a b) i j = mloc X i (a + j).
Proof. unfold mloc, crange. cbn. f_equal. lia. Qed.
Lemma mloc_smx X a b c d i j : mloc (smx X a b c d) i j = mloc X (a + i) (c + j).
Proof. unfold smx. rewrite mloc_rr, mloc_cr. reflexivity. Qed.
Lemma mget_rr m X a b i j : mget m (rrange X a b) i j = mget m X (a + i) j.
Proof. unfold mget. rewrite mloc_rr. reflexivity. Qed.
Lemma mget_cr m X a b i j : mget m (crange X a b) i j = mget m X i (a + j).
Proof. unfold mget. rewrite mloc_cr. reflexivity. Qed.
Lemma mget_smx m X a b c d i j : mget m (smx X a b c d) i j = mget m X (a + i) (c + j).
Proof. unfold mget. rewrite mloc_smx. reflexivity. Qed.
Lemma vget_mcol m X i k : vget m (mcol X k) i = mget m X i k.
Proof. unfold vget, mget, vloc, mloc, mcol. cbn. f_equal. f_equal. f_equal. lia. Qed.

Lemma xxt_ext ha X m m' i j :
  (forall k, (k < ars X)%nat -> m' (mloc X i k) = m (mloc X i k)) ->
  (forall k, (k < ars X)%nat -> m' (mloc X j k) = m (mloc X j k)) ->
  xxt ha X m' i j = xxt ha X m i j.
Proof.
  intros H1 H2. apply sum_ext. intros k Hk. unfold mget. rewrite H1, H2 by auto. reflexivity.
Qed.
Lemma xxt_rr ha X a b m i j : xxt ha (rrange X a b) m i j = xxt ha X m (a + i) (a + j).
Proof. unfold xxt. cbn [rrange ars]. apply sum_ext. intros. rewrite !mget_rr. reflexivity. Qed.

Lemma putprod_spec (add : bool) alpha p A i1 i2 j1 j2 m :
  (forall i j i' j', (i1 <= i < i2)%nat -> (j1 i <= j < j2 i)%nat -> (i1 <= i' < i2)%nat -> (j1 i' <= j' < j2 i')%nat ->
     mloc A i j = mloc A i' j' -> i = i' /\ j = j') ->
  (forall i j, (i1 <= i < i2)%nat -> (j1 i <= j < j2 i)%nat ->
     putprod add alpha p A i1 i2 j1 j2 m (mloc A i j) = kadd (if add then m (mloc A i j) else k0) (kmul alpha (p i j))) /\
  (forall l, (forall i j, (i1 <= i < i2)%nat -> (j1 i <= j < j2 i)%nat -> l <> mloc A i j) ->
     putprod add alpha p A i1 i2 j1 j2 m l = m l).
Proof.
  intro HI. unfold putprod.
  set (F := fun (r : nat) (m : hmem K) => _).
  destruct (rows_scatter (i2 - i1) (fun r => (j2 (i1 + r) - j1 (i1 + r))%nat) (fun r c => mloc A (i1 + r) (j1 (i1 + r)%nat + c))
    (fun r c => kadd (if add then m (mloc A (i1 + r) (j1 (i1 + r)%nat + c)) else k0)
                     (kmul alpha (p (i1 + r)%nat (j1 (i1 + r)%nat + c)%nat))) F m) as [P Q].
  { intros i k i' k' Hi Hk Hi' Hk' E.
    destruct (HI (i1 + i)%nat (j1 (i1 + i)%nat + k)%nat (i1 + i')%nat (j1 (i1 + i')%nat + k')%nat) as [E1 E2]; auto; try lia.
    assert (i = i') by lia. subst i'. split; [auto|lia]. }
  { intros r m' Hr Hm'. unfold F.
    refine (upto_scatter (fun c => mloc A (i1 + r) (j1 (i1 + r)%nat + c)) _ _ _ m' _ _).
    - intros a b Ha Hb E.
      destruct (HI (i1 + r)%nat (j1 (i1 + r)%nat + a)%nat (i1 + r)%nat (j1 (i1 + r)%nat + b)%nat); auto; lia.
    - intros c m2 Hc Hm2. cbv zeta. f_equal.
      assert (R : m2 (mloc A (i1 + r) (j1 (i1 + r)%nat + c)) = m (mloc A (i1 + r) (j1 (i1 + r)%nat + c))).
      { rewrite Hm2, Hm'; auto.
        - intros i' k' Hi' Hk' E.
          destruct (HI (i1 + r)%nat (j1 (i1 + r)%nat + c)%nat (i1 + i')%nat (j1 (i1 + i')%nat + k')%nat); auto; lia.
        - intros k' Hk' E.
          destruct (HI (i1 + r)%nat (j1 (i1 + r)%nat + c)%nat (i1 + r)%nat (j1 (i1 + r)%nat + k')%nat); auto; lia. }
      rewrite R. destruct add; [reflexivity|ring]. }
  clearbody F. split.
  - intros i j Hi Hj. specialize (P (i - i1)%nat (j - j1 i)%nat).
    replace (i1 + (i - i1))%nat with i in P by lia. replace (j1 i + (j - j1 i))%nat with j in P by lia. apply P; lia.
  - intros l Hl. apply Q. intros i k Hi Hk. apply Hl; lia.
Qed.

Definition kpost (ha add : bool) alpha X A m m2 : Prop :=
  (forall i j, (j <= i)%nat -> (i < acs A)%nat ->
     m2 (mloc A i j) = kadd (if add then m (mloc A i j) else k0) (kmul alpha (xxt ha X m i j))) /\
  (forall l, fst l = 0%nat -> ~ tri A l -> m2 l = m l).

Definition kdisj X A : Prop := forall i k, (i < acs X)%nat -> (k < ars X)%nat -> ~ tri A (mloc X i k).

Lemma hc_sum ha n (f : nat -> K) : hc ha (sum n f) = sum n (fun k => hc ha (f k)).
Proof. induction n as [|n IH]; cbn [sum]; [apply hc0|]. rewrite hc_add, IH. reflexivity. Qed.
Lemma hc_xxt ha X m i j : hc ha (xxt ha X m i j) = xxt ha X m j i.
Proof. unfold xxt. rewrite hc_sum. apply sum_ext. intros. rewrite hc_mul, hc_hc. ring. Qed.

(** After an update the diagonal is real. *)
Lemma hok_after (ha add : bool) alpha X A m m2 : hok ha add alpha A m -> kpost ha add alpha X A m m2 -> hok ha true alpha A m2.
Proof.
  intros Ho [P _] E. destruct (Ho E) as (A1 & A2 & A3). split; [|split]; auto.
  intros _ i Hi. rewrite P by auto. apply andb_true_iff in E. destruct E as [-> _].
  rewrite cj_add, cj_mul, A2. change (cj (xxt true X m i i)) with (hc true (xxt true X m i i)). rewrite hc_xxt.
  f_equal. destruct add; [apply A3; auto|apply cj_0].
Qed.
Lemma hok_ext (ha add : bool) alpha A m m2 : hok ha add alpha A m ->
  (forall i, (i < acs A)%nat -> m2 (mloc A i i) = m (mloc A i i)) -> hok ha add alpha A m2.
Proof.
  intros Ho H E. destruct (Ho E) as (A1 & A2 & A3). split; [|split]; auto. intros Ea i Hi. rewrite H by auto. auto.
Qed.
Lemma hok_sub (ha add : bool) alpha A a b m : (b <= acs A)%nat -> hok ha add alpha A m -> hok ha add alpha (smx A a b a b) m.
Proof.
  intros Hb Ho E. destruct (Ho E) as (A1 & A2 & A3). split; [|split]; auto. intros Ea i Hi. rewrite mloc_smx. apply A3; auto.
  cbn in Hi. lia.
Qed.
Lemma tinj_sub A a b : (b <= acs A)%nat -> tinj A -> tinj (smx A a b a b).
Proof.
  intros Hb TA i j i' j' Hj Hi Hj' Hi'. rewrite !mloc_smx. cbn in Hi, Hi'. intro E.
  destruct (TA (a + i)%nat (a + j)%nat (a + i')%nat (a + j')%nat); auto; lia.
Qed.
Lemma tri_sub A a b l : (b <= acs A)%nat -> tri (smx A a b a b) l ->
  exists i j, (a <= j)%nat /\ (j <= i)%nat /\ (i < b)%nat /\ l = mloc A i j.
Proof.
  intros Hb (i & j & Hj & Hi & ->). cbn in Hi. rewrite mloc_smx. exists (a + i)%nat, (a + j)%nat. repeat split; lia.
Qed.
Lemma tri_of A l i j : (j <= i)%nat -> (i < acs A)%nat -> l = mloc A i j -> tri A l.
Proof. intros. exists i, j. auto. Qed.
Lemma hok_true (ha : bool) alpha A m (add : bool) : hok ha true alpha A m -> hok ha add alpha A m.
Proof. intros Ho E. destruct (Ho E) as (A1 & A2 & A3). split; [|split]; auto. Qed.

(** The rank-1 updates column by column. *)
Lemma cols_spec alpha X A h m :
  acj A = false -> (0 < acs A)%nat -> ars A = acs A -> tinj A -> kdisj X A -> ab A = 0%nat -> ab X = 0%nat -> acs X = acs A ->
  cjok K (acj X) -> hok (negb (kcplx K) || h) true alpha A m ->
  exists m2, upto (ars X) (fun k om => match om with Some m => SRank1Update true alpha (mcol X k) (mkS A false h) m | None => None end) (Some m) = Some m2 /\
    kpost (negb (kcplx K) || h) true alpha X A m m2.
Proof.
  intros CA N0 SQ TA D BA BX SX CX Ho. set (ha := negb (kcplx K) || h) in *.
  apply (upto_inv (fun k om => exists m2, om = Some m2 /\
     (forall i j, (j <= i)%nat -> (i < acs A)%nat ->
        m2 (mloc A i j) = kadd (m (mloc A i j)) (kmul alpha (sum k (fun c => kmul (mget m X i c) (hc ha (mget m X j c)))))) /\
     (forall l, fst l = 0%nat -> ~ tri A l -> m2 l = m l))).
  - exists m. split; [reflexivity|]. split; [|auto]. intros. cbn [sum]. ring.
  - intros k om Hk (m1 & -> & P & Q).
    assert (MX : forall i, (i < acs A)%nat -> vget m1 (mcol X k) i = mget m X i k).
    { intros i Hi. rewrite vget_mcol. unfold mget. rewrite Q; auto. apply D; auto. lia. }
    destruct (SRank1Update_spec true alpha (mcol X k) (mkS A false h) m1) as (m2 & E2 & P2 & Q2); auto.
    + intros _. split; intros; intros c i j Hc Hj Hi E; exfalso; apply (D c k); cbn in Hc; try lia;
        exists i, j; (repeat split; auto); (transitivity (vloc (mcol X k) c); [unfold vloc, mloc, mcol; cbn; f_equal; lia|exact E]).
    + cbn [sa]. rewrite CA. discriminate.
    + intro E. destruct (Ho E) as (A1 & A2 & A3). split; [|split]; auto. intros _ i Hi. cbn [sa] in Hi.
      unfold sget, mget. cbn [sup sa]. rewrite Nat.leb_refl, CA. cbn [cjif]. rewrite P by auto.
      change (isherm (K:=K) (mkS A false h)) with ha in E. apply andb_true_iff in E. destruct E as [Eh _].
      rewrite cj_add, cj_mul, A2, A3 by auto. f_equal. f_equal.
      change (cj ?z) with (hc true z). rewrite hc_sum. apply sum_ext. intros c Hc. rewrite Eh. cbn [hc]. rewrite cj_mul, cj_cj. ring.
    + exists m2. split; [exact E2|]. split.
      * intros i j Hj Hi. specialize (P2 i j). cbn [sa] in P2. specialize (P2 Hi ltac:(lia)).
        unfold sget, mget in P2. cbn [sup sa] in P2.
        destruct (Nat.leb_spec j i) as [_|]; [|lia]. rewrite CA in P2. cbn [cjif] in P2. rewrite P2.
        rewrite P by auto. unfold xyt, isherm. cbn [sh]. fold ha. rewrite !MX by lia.
        rewrite Nat.add_comm. cbn [sum plus]. ring.
      * intros l L0 Hl. rewrite Q2; auto. intros (i & j & St & Hi & Hj & ->). apply Hl. cbn [sa] in *.
        exists i, j. unfold stored in St. cbn [sup] in St. apply Nat.leb_le in St. auto.
Qed.

Definition bsok (bs2 : nat) (add : bool) X : Prop := bs2 = 1%nat \/ isrm X = true \/ add = true.


Lemma RecRankK_spec bs bs2 (ha add : bool) alpha : (0 < bs)%nat -> (0 < bs2)%nat -> (kcplx K = false -> ha = true) ->
  forall f X A m, bsok bs2 add X ->
  acj A = false -> (0 < acs A)%nat -> (acs A <= f)%nat -> ars A = acs A -> tinj A -> kdisj X A -> ab A = 0%nat -> ab X = 0%nat -> acs X = acs A ->
  cjok K (acj X) -> hok ha add alpha A m ->
  exists m2, RecRankK f bs bs2 ha add alpha X A m = Some m2 /\ kpost ha add alpha X A m m2.
Proof.
  intros B1 B2 Hh. induction f as [|f IH]; intros X A m Hb CA N0 Nf SQ TA D BA BX SX CX Ho; [lia|].
  cbn [RecRankK]. set (N := acs A) in *.
  assert (DX : forall i c (m' : hmem K), (forall l, fst l = 0%nat -> ~ tri A l -> m' l = m l) -> (i < N)%nat -> (c < ars X)%nat ->
     m' (mloc X i c) = m (mloc X i c)).
  { intros i c m' Q Hi Hc. apply Q; [exact BX|]. apply D; auto. rewrite SX. auto. }
  destruct (Nat.leb_spec N bs2) as [Hs|Hs].
  - destruct (Nat.eqb_spec N 1) as [N1|N1].
    + eexists. split; [reflexivity|]. split.
      * intros i j Hj Hi. fold N in Hi. replace i with 0%nat by lia. replace j with 0%nat by lia.
        rewrite hset_same. destruct add; [reflexivity|ring].
      * intros l L0 Hl. apply hset_other. intros ->. apply Hl. exists 0%nat, 0%nat. fold N. auto.
    + destruct (isrm X) eqn:RX.
      * destruct (isrm A) eqn:RA; eexists; (split; [reflexivity|]).
        -- set (F := fun (i : nat) (m : hmem K) => _).
           destruct (rows_scatter N (fun i => S i) (fun i k => mloc A i k)
             (fun i k => kadd (if add then m (mloc A i k) else k0) (kmul alpha (xxt ha X m i k))) F m) as [P Q].
           { intros i k i' k' Hi Hk Hi' Hk' E. apply (TA i k i' k'); unfold N in *; auto; lia. }
           { intros i m' Hi Hm'. unfold F.
             destruct (putprod_spec add alpha (xxt ha X m') A i (S i) (fun _ => 0%nat) (fun i => S i) m') as [P Q].
             { intros a j a' j' Ha Hj Ha' Hj' E. apply (TA a j a' j'); unfold N in *; auto; lia. }
             assert (Q0 : forall l, fst l = 0%nat -> ~ tri A l -> m' l = m l).
             { intros l _ Hl. apply Hm'. intros i' k' Hi' Hk' ->. apply Hl. exists i', k'. fold N. repeat split; lia. }
             split.
             - intros k Hk. rewrite P by lia. f_equal.
               + destruct add; auto. apply Hm'. intros i' k' Hi' Hk' E.
                 destruct (TA i k i' k'); unfold N in *; auto; lia.
               + f_equal. apply xxt_ext; intros; apply DX; auto; lia.
             - intros l Hl. apply Q. intros a b Ha Hb'. replace a with i by lia. apply Hl. lia. }
           clearbody F. split.
           ++ intros i j Hj Hi. apply P; unfold N in *; lia.
           ++ intros l _ Hl. apply Q. intros i k Hi Hk ->. apply Hl. exists i, k. fold N. repeat split; lia.
        -- set (F := fun (i : nat) (m : hmem K) => _).
           destruct (rows_scatter N (fun j => (N - j)%nat) (fun j k => mloc A (j + k) j)
             (fun j k => kadd (if add then m (mloc A (j + k) j) else k0) (kmul alpha (xxt ha X m (j + k) j))) F m) as [P Q].
           { intros i k i' k' Hi Hk Hi' Hk' E. destruct (TA (i + k)%nat i (i' + k')%nat i'); unfold N in *; auto; lia. }
           { intros j m' Hj Hm'. unfold F.
             destruct (putprod_spec add alpha (xxt ha X m') A j N (fun _ => j) (fun _ => S j) m') as [P Q].
             { intros a b a' b' Ha Hb' Ha' Hb2 E. apply (TA a b a' b'); unfold N in *; auto; lia. }
             assert (Q0 : forall l, fst l = 0%nat -> ~ tri A l -> m' l = m l).
             { intros l _ Hl. apply Hm'. intros i' k' Hi' Hk' ->. apply Hl. exists (i' + k')%nat, i'. fold N. repeat split; lia. }
             split.
             - intros k Hk. rewrite P by lia. f_equal.
               + destruct add; auto. apply Hm'. intros i' k' Hi' Hk' E.
                 destruct (TA (j + k)%nat j (i' + k')%nat i'); unfold N in *; auto; lia.
               + f_equal. apply xxt_ext; intros; apply DX; auto; lia.
             - intros l Hl. apply Q. intros a b Ha Hb'. replace b with j by lia.
               specialize (Hl (a - j)%nat). replace (j + (a - j))%nat with a in Hl by lia. apply Hl. lia. }
           clearbody F. split.
           ++ intros i j Hj Hi. specialize (P j (i - j)%nat). replace (j + (i - j))%nat with i in P by lia. apply P; unfold N in *; lia.
           ++ intros l _ Hl. apply Q. intros j k Hj Hk ->. apply Hl. exists (j + k)%nat, j. fold N. repeat split; lia.
      * assert (add = true) as ->. { destruct Hb as [E|[E|E]]; auto; [lia|congruence]. }
        destruct (cols_spec alpha X A ha m) as (m2 & E2 & P2); auto.
        { destruct (kcplx K); auto. intro. apply Ho. destruct ha; auto. }
        exists m2. split; [exact E2|]. replace (negb (kcplx K) || ha) with ha in P2; auto.
        destruct (kcplx K); cbn; auto.
  - set (k0' := (N / 2)%nat). set (k := if (bs <? k0')%nat then (k0' / bs * bs)%nat else k0').
    assert (Hk0 : (0 < k0' /\ k0' < N)%nat).
    { assert (E := Nat.div_mod N 2). assert (B := Nat.mod_upper_bound N 2). unfold k0'. lia. }
    assert (Hk : (0 < k /\ k < N)%nat).
    { unfold k. destruct (Nat.ltb_spec bs k0'); [|lia].
      assert (E := Nat.div_mod k0' bs). assert (B := Nat.mod_upper_bound k0' bs). nia. }
    clearbody k. clear k0' Hk0.
    destruct (IH (rrange X 0 k) (smx A 0 k 0 k) m) as (m1 & E1 & P1 & Q1); auto.
    { cbn. lia. } { cbn. lia. }
    { apply tinj_sub; auto. unfold N in *; lia. }
    { intros i c Hi Hc (a & b & Hba & Ha & E). cbn in Hi, Hc, Ha. rewrite mloc_rr, mloc_smx in E.
      apply (D i c); auto. { unfold N in *; lia. } exists a, b. fold N. repeat split; auto; lia. }
    { apply hok_sub; auto. unfold N in *; lia. }
    rewrite E1. set (m1' := putprod add alpha (xxt ha X m1) A k N (fun _ => 0%nat) (fun _ => k) m1).
    assert (T0 : forall l, tri (smx A 0 k 0 k) l -> exists i j, (j <= i)%nat /\ (i < k)%nat /\ l = mloc A i j).
    { intros l Hl. apply tri_sub in Hl; [|unfold N in *; lia]. destruct Hl as (i & j & ? & ? & ? & ?). eauto. }
    assert (Q1' : forall l, fst l = 0%nat -> ~ tri A l -> m1 l = m l).
    { intros l L0 Hl. apply Q1; auto. intro T. apply T0 in T. destruct T as (i & j & ? & ? & ?). apply Hl. exists i, j. fold N. repeat split; auto; lia. }
    destruct (putprod_spec add alpha (xxt ha X m1) A k N (fun _ => 0%nat) (fun _ => k) m1) as [P2 Q2].
    { intros a b a' b' Ha Hb' Ha' Hb2 E. apply (TA a b a' b'); unfold N in *; auto; lia. }
    fold m1' in P2, Q2.
    assert (XX1 : forall i j, (i < N)%nat -> (j < N)%nat -> xxt ha X m1 i j = xxt ha X m i j).
    { intros i j Hi Hj. apply xxt_ext; intros; apply DX; auto. }
    assert (Q2' : forall l, fst l = 0%nat -> ~ tri A l -> m1' l = m l).
    { intros l L0 Hl. rewrite Q2, Q1'; auto. intros i j Hi Hj ->. apply Hl. exists i, j. fold N. repeat split; auto; lia. }
    assert (XX2 : forall i j, (i < N)%nat -> (j < N)%nat -> xxt ha X m1' i j = xxt ha X m i j).
    { intros i j Hi Hj. apply xxt_ext; intros; apply DX; auto. }
    assert (U11 : forall i j, (k <= j)%nat -> (j <= i)%nat -> (i < N)%nat -> m1' (mloc A i j) = m (mloc A i j)).
    { intros i j Hj Hji Hi. rewrite Q2, Q1; auto.
      - intro T. apply T0 in T. destruct T as (a & b & ? & ? & E). destruct (TA i j a b); unfold N in *; auto; lia.
      - intros a b Ha Hb' E. destruct (TA i j a b); unfold N in *; auto; lia. }
    destruct (IH (rrange X k N) (smx A k N k N) m1') as (m2 & E2 & P3 & Q3); auto.
    { cbn. lia. } { cbn. lia. }
    { apply tinj_sub; auto. }
    { intros i c Hi Hc (a & b & Hba & Ha & E). cbn in Hi, Hc, Ha. rewrite mloc_rr, mloc_smx in E.
      apply (D (k + i)%nat c); auto. { unfold N in *; lia. } exists (k + a)%nat, (k + b)%nat. fold N. repeat split; auto; lia. }
    { apply (hok_ext _ _ _ _ m); [apply hok_sub; auto|]. intros i Hi. cbn in Hi. rewrite mloc_smx. apply U11; lia. }
    exists m2. split; [exact E2|].
    assert (T1 : forall l, tri (smx A k N k N) l -> exists i j, (k <= j)%nat /\ (j <= i)%nat /\ (i < N)%nat /\ l = mloc A i j).
    { intros l Hl. apply tri_sub in Hl; auto. }
    split.
    + intros i j Hj Hi. fold N in Hi. destruct (Nat.ltb_spec i k) as [Ik|Ik]; [|destruct (Nat.ltb_spec j k) as [Jk|Jk]].
      * rewrite Q3; [|auto|].
        2:{ intro T. apply T1 in T. destruct T as (a & b & ? & ? & ? & E). destruct (TA i j a b); unfold N in *; auto; lia. }
        rewrite Q2.
        2:{ intros a b Ha Hb' E. destruct (TA i j a b); unfold N in *; auto; lia. }
        specialize (P1 i j Hj ltac:(cbn; lia)). rewrite !mloc_smx, xxt_rr in P1. cbn [plus] in P1. exact P1.
      * rewrite Q3; [|auto|].
        2:{ intro T. apply T1 in T. destruct T as (a & b & ? & ? & ? & E). destruct (TA i j a b); unfold N in *; auto; lia. }
        rewrite P2 by lia. rewrite XX1 by lia. f_equal. destruct add; auto. apply Q1; auto.
        intro T. apply T0 in T. destruct T as (a & b & ? & ? & E). destruct (TA i j a b); unfold N in *; auto; lia.
      * specialize (P3 (i - k)%nat (j - k)%nat ltac:(lia) ltac:(cbn; lia)). rewrite !mloc_smx, xxt_rr in P3.
        replace (k + (i - k))%nat with i in P3 by lia. replace (k + (j - k))%nat with j in P3 by lia.
        rewrite P3, XX2 by lia. f_equal. destruct add; auto.
    + intros l L0 Hl. rewrite Q3, Q2'; auto.
      intro T. apply T1 in T. destruct T as (a & b & ? & ? & ? & ?). apply Hl. exists a, b. fold N. repeat split; auto; lia.
Qed.

(** x lies in A's own memory, element (i,j) at A's element (i,j) or (j,i). *)
Definition lay X A : Prop := (forall i j, mloc X i j = mloc A i j) \/ (forall i j, mloc X i j = mloc A j i).
Definition ninj n k X : Prop :=
  forall i j i' j', (i < n)%nat -> (j < k)%nat -> (i' < n)%nat -> (j' < k)%nat -> mloc X i j = mloc X i' j' -> i = i' /\ j = j'.

Lemma lay_sub X A a b : lay X A -> lay (smx X a b a b) (smx A a b a b).
Proof. intros [H|H]; [left|right]; intros; rewrite !mloc_smx; apply H. Qed.
Lemma ninj_lay n X A : lay X A -> ninj n n X -> ninj n n A.
Proof.
  intros [H|H] I i j i' j' Hi Hj Hi' Hj' E.
  - apply I; auto. rewrite !H. auto.
  - destruct (I j i j' i'); auto. rewrite !H. auto.
Qed.
Lemma ninj_sub n X a : (a <= n)%nat -> forall b, (b <= n)%nat -> ninj n n X -> ninj (b - a) (b - a) (smx X a b a b).
Proof.
  intros Ha b Hb I i j i' j' Hi Hj Hi' Hj' E. rewrite !mloc_smx in E.
  destruct (I (a + i)%nat (a + j)%nat (a + i')%nat (a + j')%nat); auto; lia.
Qed.


Lemma sum_split n k (f : nat -> K) : (k <= n)%nat -> sum n f = kadd (sum k f) (sum (n - k) (fun c => f (k + c)%nat)).
Proof. intro H. replace n with (k + (n - k))%nat at 1 by lia. apply sum_app. Qed.

Lemma InPlace_spec bs bs2 (ha add : bool) alpha : (0 < bs)%nat -> (0 < bs2)%nat -> (kcplx K = false -> ha = true) ->
  forall f X A m, lay X A -> ninj (acs A) (acs A) X ->
  acj A = false -> (0 < acs A)%nat -> (acs A <= f)%nat -> ars A = acs A -> ab A = 0%nat ->
  cjok K (acj X) -> hok ha add alpha A m ->
  exists m2, InPlaceRankK f bs bs2 ha add alpha X A m = Some m2 /\ kpost ha add alpha (crange X 0 (acs A)) A m m2.
Proof.
  intros B1 B2 Hh. induction f as [|f IH]; intros X A m LA IX CA N0 Nf SQ BA CX Ho; [lia|].
  cbn [InPlaceRankK]. set (N := acs A) in *.
  assert (BX : ab X = 0%nat). { destruct LA as [H|H]; specialize (H 0%nat 0%nat); unfold mloc in H; injection H; congruence. }
  assert (IA := ninj_lay N X A LA IX).
  assert (LX : forall i c (R : nat -> nat -> Prop), (R i c /\ R c i) -> exists a b, R a b /\ mloc X i c = mloc A a b).
  { intros i c R [R1 R2]. destruct LA as [H|H]; [exists i, c|exists c, i]; split; auto. }
  destruct (Nat.eqb_spec N 1) as [N1|N1].
  - eexists. split; [reflexivity|]. split.
    + intros i j Hj Hi. fold N in Hi. replace i with 0%nat by lia. replace j with 0%nat by lia.
      rewrite hset_same. unfold xxt. cbn [crange ars]. rewrite N1. cbn [sum Nat.sub]. rewrite !mget_cr. cbn [plus]. destruct add; ring.
    + intros l L0 Hl. apply hset_other. intros ->. apply Hl. exists 0%nat, 0%nat. fold N. auto.
  - set (k := (N / 2)%nat).
    assert (Hk : (0 < k /\ k < N)%nat).
    { assert (E := Nat.div_mod N 2). assert (B := Nat.mod_upper_bound N 2). unfold k. lia. }
    clearbody k.
    assert (TA : forall a b, (b <= N)%nat -> tinj (smx A a b a b)).
    { intros a b Hb i j i' j' Hj Hi Hj' Hi' E. cbn in Hi, Hi'. rewrite !mloc_smx in E.
      destruct (IA (a + i)%nat (a + j)%nat (a + i')%nat (a + j')%nat); auto; lia. }
    set (sx := fun i j c => kmul (mget m X i c) (hc ha (mget m X j c))).
    (* elements of x outside the square [a,b) are not in the triangle of that square *)
    assert (OUT : forall a b i c, (b <= N)%nat -> (i < N)%nat -> (c < N)%nat -> (a <= i < b /\ a <= c < b -> False)%nat ->
        ~ tri (smx A a b a b) (mloc X i c)).
    { intros a b i c Hb Hi Hc HO T. apply tri_sub in T; [|exact Hb]. destruct T as (p & q & Hq & Hpq & Hp & E).
      destruct LA as [H|H]; rewrite H in E; apply IA in E; lia. }
    assert (OUTA : forall a b i c, (b <= N)%nat -> (i < N)%nat -> (c < N)%nat -> (a <= i < b /\ a <= c < b -> False)%nat ->
        ~ tri (smx A a b a b) (mloc A i c)).
    { intros a b i c Hb Hi Hc HO T. apply tri_sub in T; [|exact Hb]. destruct T as (p & q & Hq & Hpq & Hp & E).
      apply IA in E; lia. }
    destruct (IH (smx X k N k N) (smx A k N k N) m) as (m1 & E1 & P1 & Q1); auto.
    { apply lay_sub; auto. } { apply (ninj_sub N); auto; lia. } { cbn. lia. } { cbn. lia. }
    { apply hok_sub; auto. }
    rewrite E1.
    destruct (RecRankK_spec bs bs2 ha true alpha B1 B2 Hh N (smx X k N 0 k) (smx A k N k N) m1) as (m2 & E2 & P2 & Q2); auto.
    { right; right; auto. } { cbn. lia. } { cbn. lia. }
    { intros i c Hi Hc. cbn in Hi, Hc. rewrite mloc_smx. apply OUT; lia. }
    { apply (hok_after ha add alpha _ _ m _ (hok_sub ha add alpha A k N m ltac:(auto) Ho) (conj P1 Q1)). }
    rewrite E2.
    assert (F12 : forall l, fst l = 0%nat -> ~ tri (smx A k N k N) l -> m2 l = m l).
    { intros l L0 Hl. rewrite Q2, Q1; auto. }
    destruct (IH (smx X 0 k 0 k) (smx A 0 k 0 k) m2) as (m3 & E3 & P3 & Q3); auto.
    { apply lay_sub; auto. } { apply (ninj_sub N); auto; lia. } { cbn. lia. } { cbn. lia. }
    { apply (hok_ext _ _ _ _ m); [apply hok_sub; auto; unfold N in *; lia|]. intros i Hi. cbn in Hi. rewrite mloc_smx. cbn [plus].
      apply F12; auto. apply OUTA; lia. }
    rewrite E3.
    destruct (RecRankK_spec bs bs2 ha true alpha B1 B2 Hh N (smx X 0 k k N) (smx A 0 k 0 k) m3) as (m4 & E4 & P4 & Q4); auto.
    { right; right; auto. } { cbn. lia. } { cbn. lia. } { apply TA. lia. }
    { intros i c Hi Hc. cbn in Hi, Hc. rewrite mloc_smx. apply OUT; lia. }
    { refine (hok_after ha add alpha _ _ m2 _ _ (conj P3 Q3)).
      apply (hok_ext _ _ _ _ m); [apply hok_sub; auto; unfold N in *; lia|]. intros i Hi. cbn in Hi. rewrite mloc_smx. cbn [plus].
      apply F12; auto. apply OUTA; lia. }
    rewrite E4.
    assert (F34 : forall l, fst l = 0%nat -> ~ tri (smx A 0 k 0 k) l -> m4 l = m2 l).
    { intros l L0 Hl. rewrite Q4, Q3; auto. }
    eexists. split; [reflexivity|].
    destruct (putprod_spec add alpha (xxt ha (crange X 0 N) m) A k N (fun _ => 0%nat) (fun _ => k) m4) as [P5 Q5].
    { intros a b a' b' Ha Hb' Ha' Hb2 E. apply IA; auto; lia. }
    set (m5 := putprod _ _ _ _ _ _ _ _ _) in *.
    assert (XX : forall i j, xxt ha (crange X 0 N) m i j = kadd (sum k (sx i j)) (sum (N - k) (fun c => sx i j (k + c)%nat))).
    { intros i j. unfold xxt. cbn [crange ars]. rewrite Nat.sub_0_r. rewrite (sum_split N k) by lia. unfold sx.
      f_equal; apply sum_ext; intros; rewrite !mget_cr; reflexivity. }
    split.
    + intros i j Hj Hi. fold N in Hi. destruct (Nat.ltb_spec i k) as [Ik|Ik]; [|destruct (Nat.ltb_spec j k) as [Jk|Jk]].
      * rewrite Q5 by (intros a b Ha Hb' E; apply IA in E; lia).
        specialize (P4 i j Hj ltac:(cbn; lia)). rewrite !mloc_smx in P4. cbn [plus] in P4. rewrite P4.
        specialize (P3 i j Hj ltac:(cbn; lia)). rewrite !mloc_smx in P3. cbn [plus] in P3. rewrite P3.
        rewrite XX.
        assert (G1 : xxt ha (crange (smx X 0 k 0 k) 0 (acs (smx A 0 k 0 k))) m2 i j = sum k (sx i j)).
        { unfold xxt. cbn [crange ars smx rrange acs]. rewrite !Nat.sub_0_r. apply sum_ext. intros c Hc.
          rewrite !mget_cr, !mget_smx. cbn [plus]. unfold sx, mget.
          rewrite !F12; auto; apply OUT; lia. }
        assert (G2 : xxt ha (smx X 0 k k N) m3 i j = sum (N - k) (fun c => sx i j (k + c)%nat)).
        { unfold xxt. cbn [crange ars smx rrange]. apply sum_ext. intros c Hc.
          rewrite !mget_smx. cbn [plus]. unfold sx, mget.
          rewrite !Q3, !F12; auto; apply OUT; lia. }
        rewrite G1, G2. replace (m2 (mloc A i j)) with (m (mloc A i j)). { destruct add; ring. }
        symmetry. apply F12; auto. apply OUTA; lia.
      * rewrite P5 by lia. f_equal. destruct add; auto. rewrite F34, F12; auto; apply OUTA; lia.
      * rewrite Q5 by (intros a b Ha Hb' E; apply IA in E; lia).
        rewrite F34; [|auto|apply OUTA; lia].
        specialize (P2 (i - k)%nat (j - k)%nat ltac:(lia) ltac:(cbn; lia)). rewrite !mloc_smx in P2.
        specialize (P1 (i - k)%nat (j - k)%nat ltac:(lia) ltac:(cbn; lia)). rewrite !mloc_smx in P1.
        replace (k + (i - k))%nat with i in P1, P2 by lia. replace (k + (j - k))%nat with j in P1, P2 by lia.
        rewrite P2, P1. rewrite XX.
        assert (G1 : xxt ha (crange (smx X k N k N) 0 (acs (smx A k N k N))) m (i - k) (j - k) = sum (N - k) (fun c => sx i j (k + c)%nat)).
        { unfold xxt. cbn [crange ars smx rrange acs]. rewrite !Nat.sub_0_r. apply sum_ext. intros c Hc.
          rewrite !mget_cr, !mget_smx. cbn [plus]. unfold sx.
          replace (k + (i - k))%nat with i by lia. replace (k + (j - k))%nat with j by lia. reflexivity. }
        assert (G2 : xxt ha (smx X k N 0 k) m1 (i - k) (j - k) = sum k (sx i j)).
        { unfold xxt. cbn [crange ars smx rrange]. rewrite Nat.sub_0_r. apply sum_ext. intros c Hc.
          rewrite !mget_smx. cbn [plus]. unfold sx, mget.
          replace (k + (i - k))%nat with i by lia. replace (k + (j - k))%nat with j by lia.
          rewrite !Q1; auto; apply OUT; lia. }
        rewrite G1, G2. destruct add; ring.
    + intros l L0 Hl.
      assert (NT : forall a b, (b <= N)%nat -> ~ tri (smx A a b a b) l).
      { intros a b Hb T. apply tri_sub in T; auto. destruct T as (p & q & ? & ? & ? & ->). apply Hl. exists p, q. fold N. repeat split; auto; lia. }
      rewrite Q5, F34, F12; auto; try (apply NT; lia).
      intros a b Ha Hb' ->. apply Hl. exists a, b. fold N. repeat split; auto; lia.
Qed.

Lemma samestore_disj X A : (0 < acs A)%nat -> (0 < acs X)%nat -> (0 < ars X)%nat -> kdisj X A -> samestore X A = false.
Proof.
  intros N0 X0 K0 D. unfold samestore. destruct (leqb_spec (mloc X 0 0) (mloc A 0 0)) as [E|]; auto.
  exfalso. apply (D 0%nat 0%nat); auto. exists 0%nat, 0%nat. auto.
Qed.
Lemma samestore_lay X A : lay X A -> samestore X A = true.
Proof.
  intros H. unfold samestore. destruct (leqb_spec (mloc X 0 0) (mloc A 0 0)) as [E|E]; auto.
  destruct H as [H|H]; rewrite H in E; congruence.
Qed.


(** Where x may lie: clear of the triangle, or on A's own elements; then not wider than A
    unless the product is added. *)
Definition ksafe (add : bool) X A : Prop :=
  kdisj X A \/ (lay X A /\ ninj (acs A) (Nat.max (acs A) (ars X)) X /\ ((acs A < ars X)%nat -> add = true)).

Section Core.
Variables (bs bs2 : nat) (add : bool) (alpha : K) (h : bool).
Hypotheses (B1 : (0 < bs)%nat) (B2 : (0 < bs2)%nat).
Let ha : bool := negb (kcplx K) || h.

Lemma ha_real : kcplx K = false -> ha = true.
Proof. unfold ha. intros ->. reflexivity. Qed.

Lemma NBK_disj f X A m :
  bsok bs2 add X -> acj A = false -> (0 < acs A)%nat -> (0 < ars X)%nat -> ars A = acs A -> tinj A -> kdisj X A ->
  ab A = 0%nat -> ab X = 0%nat -> acs X = acs A -> cjok K (acj X) -> hok ha add alpha A m ->
  exists m2, NonBlasRankK (S f) bs bs2 add alpha X (mkS A false h) m = Some m2 /\ kpost ha add alpha X A m m2.
Proof.
  intros Hb CA N0 K0 SQ TA D BA BX SX CX Ho. cbn [NonBlasRankK]. cbn [sa sup sh]. rewrite CA.
  rewrite samestore_disj by (auto; lia). apply RecRankK_spec; auto. apply ha_real.
Qed.

Lemma kpost_cr0 X A m m2 : kpost ha add alpha (crange X 0 (acs A)) A m m2 -> ars X = acs A -> kpost ha add alpha X A m m2.
Proof.
  intros [P Q] E. split; auto. intros i j Hj Hi. rewrite P by auto. f_equal. f_equal. unfold xxt. cbn [crange ars].
  rewrite Nat.sub_0_r, E. apply sum_ext. intros. rewrite !mget_cr. reflexivity.
Qed.

Lemma NBK_core f X A m :
  bsok bs2 add X -> acj A = false -> (0 < acs A)%nat -> (0 < ars X)%nat -> ars A = acs A -> tinj A -> ksafe add X A ->
  ab A = 0%nat -> ab X = 0%nat -> acs X = acs A -> cjok K (acj X) -> hok ha add alpha A m ->
  exists m2, NonBlasRankK (2 + f) bs bs2 add alpha X (mkS A false h) m = Some m2 /\ kpost ha add alpha X A m m2.
Proof.
  intros Hb CA N0 K0 SQ TA HS BA BX SX CX Ho. destruct HS as [D|(LA & IX & Hw)].
  { apply (NBK_disj (S f)); auto. }
  cbn [plus]. remember (S f) as f1 eqn:Ef. cbn [NonBlasRankK]. cbn [sa sup sh]. subst f1. rewrite CA, (samestore_lay X A LA).
  change (isherm (K:=K) (mkS A false h)) with ha. set (N := acs A) in *. set (k := ars X) in *.
  assert (IXn : ninj N N X). { intros i j i' j' ? ? ? ?. apply IX; lia. }
  assert (IXk : ninj N k X). { intros i j i' j' ? ? ? ?. apply IX; lia. }
  assert (IA := ninj_lay N X A LA IXn).
  destruct (Nat.leb_spec N k) as [Hk|Hk].
  - destruct (InPlace_spec bs bs2 ha add alpha B1 B2 ha_real N (crange X 0 N) A m) as (m1 & E1 & P1); auto.
    { destruct LA as [H|H]; [left|right]; intros; rewrite mloc_cr; apply H. }
    { intros i j i' j'. rewrite !mloc_cr. apply IXn. }
    rewrite E1.
    assert (P1' : kpost ha add alpha (crange X 0 N) A m m1).
    { destruct P1 as [P Q]. split; auto. intros i j Hj Hi. rewrite P by auto. f_equal. f_equal. unfold xxt. cbn [crange ars].
      rewrite !Nat.sub_0_r. apply sum_ext. intros. rewrite !mget_cr. reflexivity. }
    clear P1. destruct (Nat.ltb_spec N k) as [Hlt|Hge].
    2:{ exists m1. split; auto. apply kpost_cr0; auto. fold k N. lia. }
    assert (Ea : add = true) by auto.
    assert (D : kdisj (crange X N k) A).
    { intros i c Hi Hc (a & b & Hba & Ha & E). cbn in Hi, Hc. rewrite mloc_cr in E. rewrite SX in Hi.
      destruct LA as [H|H]; [rewrite <- H in E|rewrite <- H in E]; apply IXk in E; unfold N in *; lia. }
    destruct (NBK_disj f (crange X N k) A m1) as (m2 & E2 & P2 & Q2); auto.
    { cbn. lia. }
    { apply hok_true. apply (hok_after ha add alpha (crange X 0 N) A m); auto. }
    exists m2. split; [exact E2|]. destruct P1' as [P1 Q1]. split.
    + intros i j Hj Hi. rewrite P2, P1 by auto. rewrite Ea.
      assert (G : xxt ha (crange X N k) m1 i j = xxt ha (crange X N k) m i j).
      { apply xxt_ext; intros c Hc; apply Q1; auto; apply D; cbn; auto; lia. }
      rewrite G. unfold xxt. cbn [crange ars]. rewrite Nat.sub_0_r. fold k.
      rewrite (sum_split k N) by lia.
      rewrite (sum_ext N (fun c => kmul (mget m (crange X 0 N) i c) _) (fun c => kmul (mget m X i c) (hc ha (mget m X j c))))
        by (intros; rewrite !mget_cr; reflexivity).
      rewrite (sum_ext (k - N) (fun c => kmul (mget m (crange X N k) i c) _) (fun c => kmul (mget m X i (N + c)) (hc ha (mget m X j (N + c)))))
        by (intros; rewrite !mget_cr; reflexivity).
      ring.
    + intros l L0 Hl. rewrite Q2, Q1; auto.
  - assert (OUT : forall a b i c, (b <= N)%nat -> (i < N)%nat -> (c < N)%nat -> (a <= i < b /\ a <= c < b -> False)%nat ->
        ~ tri (smx A a b a b) (mloc X i c)).
    { intros a b i c Hb' Hi Hc HO T. apply tri_sub in T; [|exact Hb']. destruct T as (p & q & Hq & Hpq & Hp & E).
      destruct LA as [H|H]; rewrite H in E; apply IA in E; lia. }
    assert (OUTA : forall a b i c, (b <= N)%nat -> (i < N)%nat -> (c < N)%nat -> (a <= i < b /\ a <= c < b -> False)%nat ->
        ~ tri (smx A a b a b) (mloc A i c)).
    { intros a b i c Hb' Hi Hc HO T. apply tri_sub in T; [|exact Hb']. destruct T as (p & q & Hq & Hpq & Hp & E).
      apply IA in E; lia. }
    destruct (NBK_disj f (rrange X k N) (smx A k N k N) m) as (m1 & E1 & P1 & Q1); auto.
    { cbn. lia. }
    { apply tinj_sub; auto. }
    { intros i c Hi Hc. cbn in Hi, Hc. rewrite mloc_rr. apply OUT; unfold k in *; lia. }
    { apply hok_sub; auto. }
    rewrite E1.
    destruct (putprod_spec add alpha (xxt ha X m1) A k N (fun _ => 0%nat) (fun _ => k) m1) as [P2 Q2].
    { intros a b a' b' Ha Hb' Ha' Hb2 E. apply IA; auto; lia. }
    set (m2 := putprod _ _ _ _ _ _ _ _ _) in *.
    assert (XM1 : forall i c, (i < N)%nat -> (c < k)%nat -> m1 (mloc X i c) = m (mloc X i c)).
    { intros i c Hi Hc. apply Q1; [exact BX|]. apply OUT; lia. }
    assert (XM2 : forall i c, (i < k)%nat -> (c < k)%nat -> m2 (mloc X i c) = m (mloc X i c)).
    { intros i c Hi Hc. rewrite Q2. { apply XM1; lia. }
      intros a b Ha Hb' E. destruct LA as [H|H]; rewrite H in E; apply IA in E; lia. }
    destruct (InPlace_spec bs bs2 ha add alpha B1 B2 ha_real N (rrange X 0 k) (smx A 0 k 0 k) m2) as (m3 & E3 & P3 & Q3); auto.
    { destruct LA as [H|H]; [left|right]; intros; rewrite mloc_rr, mloc_smx; apply H. }
    { intros i j i' j' Hi Hj Hi' Hj'. cbn in Hi, Hj, Hi', Hj'. rewrite !mloc_rr. apply IXn; lia. }
    { cbn. lia. } { cbn. lia. }
    { apply (hok_ext _ _ _ _ m); [apply hok_sub; auto; unfold N in *; lia|]. intros i Hi. cbn in Hi. rewrite mloc_smx. cbn [plus].
      rewrite Q2, Q1; auto. { apply OUTA; lia. } intros a b Ha Hb' E; apply IA in E; lia. }
    exists m3. split; [exact E3|]. split.
    + intros i j Hj Hi. fold N in Hi. destruct (Nat.ltb_spec i k) as [Ik|Ik]; [|destruct (Nat.ltb_spec j k) as [Jk|Jk]].
      * specialize (P3 i j Hj ltac:(cbn; lia)). rewrite !mloc_smx in P3. cbn [plus] in P3. rewrite P3. f_equal.
        -- destruct add; auto. rewrite Q2, Q1; auto. { apply OUTA; lia. } intros a b Ha Hb' E; apply IA in E; lia.
        -- f_equal. unfold xxt. cbn [crange ars smx rrange acs]. rewrite !Nat.sub_0_r. fold k. apply sum_ext. intros c Hc.
           rewrite !mget_cr, !mget_rr. cbn [plus]. unfold mget. rewrite !XM2 by lia. reflexivity.
      * rewrite Q3; [|auto|apply OUTA; lia]. rewrite P2 by lia. f_equal.
        -- destruct add; auto. apply Q1; auto. apply OUTA; lia.
        -- f_equal. apply xxt_ext; intros; apply XM1; auto; lia.
      * rewrite Q3; [|auto|apply OUTA; lia]. rewrite Q2 by (intros a b Ha Hb' E; apply IA in E; lia).
        specialize (P1 (i - k)%nat (j - k)%nat ltac:(lia) ltac:(cbn; lia)). rewrite !mloc_smx, xxt_rr in P1.
        replace (k + (i - k))%nat with i in P1 by lia. replace (k + (j - k))%nat with j in P1 by lia. exact P1.
    + intros l L0 Hl.
      assert (NT : forall a b, (b <= N)%nat -> ~ tri (smx A a b a b) l).
      { intros a b Hb' T. apply tri_sub in T; auto. destruct T as (p & q & ? & ? & ? & ->). apply Hl. exists p, q. fold N. repeat split; auto; lia. }
      rewrite Q3, Q2, Q1; auto; try (apply NT; lia).
      intros a b Ha Hb' ->. apply Hl. exists a, b. fold N. repeat split; auto; lia.
Qed.
End Core.

Definition xxv X m (ha : bool) alpha (i j : nat) : K := kmul alpha (xxt ha X m i j).

Lemma Vsym_xxv (add : bool) alpha X (S : smat) m : hermok add alpha S m -> Vsym S (xxv X m (isherm (K:=K) S) alpha).
Proof.
  intros H i j Hi Hj. unfold xxv. rewrite hc_mul, hc_xxt. f_equal.
  destruct (isherm (K:=K) S) eqn:I; cbn [hc]; [rewrite (hermok_cj _ _ _ _ H I)|]; reflexivity.
Qed.

Lemma xxt_conj ha X m i j : cjok K (acj X) -> xxt ha (mconj K X) m i j = cj (xxt ha X m i j).
Proof.
  intro C. unfold xxt. rewrite cj_sum. cbn [mconj ars]. apply sum_ext. intros. rewrite !mget_conj by auto.
  rewrite cj_mul, hc_cj. reflexivity.
Qed.

Lemma NBK_low f bs bs2 (add : bool) alpha X (S : smat) m :
  (0 < bs)%nat -> (0 < bs2)%nat -> bsok bs2 add X ->
  sup S = false -> square S -> (0 < acs (sa S))%nat -> (0 < ars X)%nat -> tinj (sa S) -> ksafe add X (sa S) ->
  ab (sa S) = 0%nat -> ab X = 0%nat -> acs X = acs (sa S) -> cjok K (acj X) -> cjok K (acj (sa S)) ->
  hermok add alpha S m ->
  exists m2, NonBlasRankK (3 + f) bs bs2 add alpha X S m = Some m2 /\ upd_post add (xxv X m (isherm (K:=K) S) alpha) S m m2.
Proof.
  intros B1 B2 Hb U SQ N0 K0 TA SA BA BX SX CX CA Ho. destruct S as [A u h]. unfold square in SQ. cbn [sup sa] in *. subst u.
  destruct (acj A) eqn:EA.
  - assert (CA' : acj (mconj K A) = false) by (apply acj_conj; rewrite ?EA; auto).
    destruct (NBK_core bs bs2 add (cj alpha) h B1 B2 f (mconj K X) (mconj K A) m) as (m2 & E2 & P & Q); auto.
    { cbn. apply cjok_conj. }
    { apply hok_hermok; auto. apply (hermok_conj add alpha (mkS A false h)); auto. cbn [sa]. rewrite EA. auto. }
    exists m2. split.
    { cbn [plus] in *. remember (S (S f)) as f1 eqn:Ef. cbn [NonBlasRankK]. cbn [sup sa]. rewrite EA. exact E2. }
    apply lift_conj; [cbn [sa]; rewrite EA; auto|].
    apply lift_lower; auto.
    + intros i j Hi Hj. change (isherm (K:=K) (sconj (K:=K) (mkS A false h))) with (isherm (K:=K) (mkS A false h)).
      rewrite hc_cj. f_equal. exact (Vsym_xxv add alpha X (mkS A false h) m Ho i j Hi Hj).
    + intros i j Hj Hi. cbn [sconj sa] in *. rewrite P by auto. f_equal. unfold xxv. rewrite xxt_conj by auto.
      rewrite cj_mul. reflexivity.
  - destruct (NBK_core bs bs2 add alpha h B1 B2 (S f) X A m) as (m2 & E2 & P & Q); auto. { apply hok_hermok; auto. }
    exists m2. split; [exact E2|]. apply lift_lower; auto. eapply Vsym_xxv; eauto.
Qed.

Lemma lay_tr X A : lay X A -> lay X (tr A).
Proof. intros [H|H]; [right|left]; intros; rewrite mloc_tr; auto. Qed.

Theorem SRankKUpdate_spec bs bs2 (add : bool) alpha X (S : smat) m :
  (0 < bs)%nat -> (0 < bs2)%nat -> bsok bs2 add X ->
  square S -> tinj (lowview S) -> ksafe add X (lowview S) ->
  (ars X = 1%nat -> asi X = 1 -> ssafe (mcol X 0) (lowview S)) ->
  ab (sa S) = 0%nat -> ab X = 0%nat -> acs X = acs (sa S) -> cjok K (acj X) -> cjok K (acj (sa S)) ->
  hermok add alpha S m -> (alpha = k0 \/ ars X = 0%nat -> add = true) ->
  exists m2, SRankKUpdate bs bs2 add alpha X S m = Some m2 /\ upd_post add (xxv X m (isherm (K:=K) S) alpha) S m m2.
Proof.
  intros B1 B2 Hb SQ TA SA S1 BA BX SX CX CA Ho Hz. unfold SRankKUpdate.
  assert (Nop : (alpha = k0 \/ ars X = 0%nat) -> upd_post add (xxv X m (isherm (K:=K) S) alpha) S m m).
  { intro H. split; auto. intros i j Hi Hj. rewrite (Hz H). unfold xxv. destruct H as [->|H]; [ring|].
    unfold xxt. rewrite H. cbn [sum]. ring. }
  destruct (keqb alpha k0) eqn:Ea; cbn [negb andb].
  { apply keqb_eq in Ea. exists m. split; auto. }
  destruct (Nat.ltb_spec 0 (acs X)) as [N0|N0]; cbn [andb].
  2:{ exists m. split; auto. split; auto. intros; lia. }
  destruct (Nat.ltb_spec 0 (ars X)) as [K0|K0].
  2:{ exists m. split; auto. apply Nop. right. lia. }
  destruct (Nat.eqb_spec (ars X) 1) as [K1|K1].
  { destruct (SRank1Update_spec add alpha (mcol X 0) S m) as (m2 & E2 & P2 & Q2); auto.
    exists m2. split; auto. split; auto. intros i j Hi Hj. rewrite P2 by auto. f_equal. unfold xyt, xxv, xxt.
    rewrite K1. cbn [sum]. rewrite !vget_mcol. ring. }
  destruct (sup S) eqn:U.
  2:{ unfold lowview in *. rewrite U in *. apply (NBK_low 1); auto. lia. }
  unfold lowview in *. rewrite U in *. remember 3%nat as f1 eqn:Ef. cbn [NonBlasRankK]. subst f1. rewrite U.
  set (T := if issym (K:=K) S then strans S else sadj (K:=K) S).
  assert (G : exists m2, NonBlasRankK 3 bs bs2 add alpha X T m = Some m2 /\ upd_post add (xxv X m (isherm (K:=K) T) alpha) T m m2).
  { assert (Ec : cj alpha = alpha \/ issym (K:=K) S = true).
    { destruct (issym (K:=K) S) eqn:E; auto. left. apply (hermok_cj add alpha S m Ho).
      revert E. unfold issym, isherm. destruct (kcplx K), (sh S); cbn; auto. }
    unfold square in SQ.
    apply (NBK_low 0); auto; unfold T, square; destruct (issym (K:=K) S) eqn:E; cbn [strans sadj sconj sup sa]; rewrite ?U; auto;
      try (cbn; rewrite SQ; auto; lia).
    - cbn. apply cjok_conj.
    - apply hermok_strans; auto.
    - unfold sadj. destruct Ec as [Ec|Ec]; [|discriminate]. rewrite <- Ec. apply hermok_strans; auto. apply hermok_conj; auto. }
  destruct G as (m2 & E2 & P2). exists m2. split; [exact E2|].
  apply lift_up; auto. { eapply Vsym_xxv; eauto. }
  replace (isherm (K:=K) S) with (isherm (K:=K) T); [exact P2|]. unfold T. destruct (issym (K:=K) S); reflexivity.
Qed.
End Proofs.
