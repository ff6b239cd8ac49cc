(** Proofs about SymRank.v. *)
From Coq Require Import ZArith Lia Bool List Ring Arith.
From Verif Require Import Base Scal MatMem MatVec MatVecProofs SymRank.
Open Scope Z_scope.

(** A loop whose i-th step writes v i k at d i k for k < L i. *)
Lemma rows_scatter {K : scal} n (L : nat -> nat) (d : nat -> nat -> loc) (v : nat -> nat -> K) F (m : hmem K) :
  (forall i k i' k', (i < n)%nat -> (k < L i)%nat -> (i' < n)%nat -> (k' < L i')%nat -> d i k = d i' k' -> i = i' /\ k = k') ->
  (forall i m', (i < n)%nat ->
     (forall l, (forall i' k', (i' < i)%nat -> (k' < L i')%nat -> l <> d i' k') -> m' l = m l) ->
     (forall k, (k < L i)%nat -> F i m' (d i k) = v i k) /\
     (forall l, (forall k, (k < L i)%nat -> l <> d i k) -> F i m' l = m' l)) ->
  (forall i k, (i < n)%nat -> (k < L i)%nat -> upto n F m (d i k) = v i k) /\
  (forall l, (forall i k, (i < n)%nat -> (k < L i)%nat -> l <> d i k) -> upto n F m l = m l).
Proof.
  intros Hd HF.
  apply (upto_inv (fun c m' => (forall i k, (i < c)%nat -> (k < L i)%nat -> m' (d i k) = v i k) /\
     (forall l, (forall i k, (i < c)%nat -> (k < L i)%nat -> l <> d i k) -> m' l = m l)) n F m).
  - split; [intros; lia|auto].
  - intros i s Hi [H1 H2]. destruct (HF i s Hi H2) as [P Q]. split.
    + intros i' k Hi' Hk. destruct (Nat.eq_dec i' i) as [->|Ne]; [auto|].
      rewrite Q. { apply H1; auto; lia. }
      intros k' Hk' E. apply Ne. apply (Hd i' k i k'); auto; lia.
    + intros l Hl. rewrite Q. { apply H2. intros; apply Hl; auto; lia. }
      intros k Hk. apply Hl; auto. lia.
Qed.

Definition tri (A : mat) (l : loc) : Prop := exists i j, (j <= i)%nat /\ (i < acs A)%nat /\ l = mloc A i j.
Definition tinj (A : mat) : Prop :=
  forall i j i' j', (j <= i)%nat -> (i < acs A)%nat -> (j' <= i')%nat -> (i' < acs A)%nat ->
    mloc A i j = mloc A i' j' -> i = i' /\ j = j'.

Section Proofs.
Context {K : scal}.
Add Ring Kr : (kring K).
Implicit Types (m : hmem K) (x : vec) (A X : mat) (alpha : K).

Definition kreok : Prop := forall x : K, cj x = x -> kre x = x.

(** For a hermitian matrix the scalar and the old diagonal are real. *)
Definition hok (ha add : bool) alpha A m : Prop :=
  ha && kcplx K = true -> kreok /\ cj alpha = alpha /\
    (add = true -> forall i, (i < acs A)%nat -> cj (m (mloc A i i)) = m (mloc A i i)).

Definition r1post (ha add : bool) alpha (xs : nat -> K) A m m2 : Prop :=
  (forall i j, (j <= i)%nat -> (i < acs A)%nat ->
     m2 (mloc A i j) = kadd (if add then m (mloc A i j) else k0) (kmul alpha (kmul (xs i) (hc ha (xs j))))) /\
  (forall l, ~ tri A l -> m2 l = m l).

Lemma hc0 ha : hc ha (k0 : K) = k0.
Proof. destruct ha; [apply cj_0|reflexivity]. Qed.

Lemma realdiag_id A m :
  (forall i, (i < acs A)%nat -> kre (m (mloc A i i)) = m (mloc A i i)) -> forall l, realdiag A m l = m l.
Proof.
  intro H. unfold realdiag.
  apply (upto_inv (fun _ s => forall l, s l = m l)); [auto|].
  intros i s Hi Hs l. destruct (leqb_spec l (mloc A i i)) as [->|Ne].
  - rewrite hset_same, Hs. auto.
  - rewrite hset_other; auto.
Qed.

Lemma r1post_real (ha add : bool) alpha xs A m m2 :
  hok ha add alpha A m -> r1post ha add alpha xs A m m2 ->
  r1post ha add alpha xs A m (if ha && kcplx K then realdiag A m2 else m2).
Proof.
  intros Ho [P Q]. destruct (ha && kcplx K) eqn:E; [|split; auto].
  destruct (Ho E) as (Hk & Ha & Hd). apply andb_true_iff in E. destruct E as [-> Ec].
  assert (R : forall l, realdiag A m2 l = m2 l).
  { apply realdiag_id. intros i Hi. apply Hk. rewrite P by lia. cbn [hc].
    rewrite cj_add, !cj_mul, cj_cj, Ha. destruct add; [rewrite Hd by auto|rewrite cj_0]; ring. }
  split; [intros|intros]; rewrite R; auto.
Qed.

(** Where x may lie in A: row by row, x may be the first row (upward or downward) or the last. *)
Definition rsafe x A : Prop :=
  forall k i j, (k < vs x)%nat -> (j <= i)%nat -> (i < acs A)%nat -> vloc x k = mloc A i j ->
    i = 0%nat \/ ((i = acs A - 1)%nat /\ (k <= j)%nat).
(** Column by column: the first column. *)
Definition csafe x A : Prop :=
  forall k i j, (k < vs x)%nat -> (j <= i)%nat -> (i < acs A)%nat -> vloc x k = mloc A i j ->
    j = 0%nat /\ (k <= i)%nat.

Lemma eqb_hc ha cx (x : K) : (if Bool.eqb ha cx then x else cj x) = hc ha (cjif cx x).
Proof. destruct ha, cx; cbn; rewrite ?cj_cj; reflexivity. Qed.
Lemma xor_hc ha cx (x : K) : (if xorb ha cx then cj x else x) = hc ha (cjif cx x).
Proof. destruct ha, cx; cbn; rewrite ?cj_cj; reflexivity. Qed.

Lemma SRowRank1_spec (a1 ha rm add : bool) alpha x A m :
  vst x = 1 -> vs x = acs A -> (0 < acs A)%nat -> tinj A -> rsafe x A -> (rm = true -> asj A = 1) ->
  (a1 = true -> alpha = k1) -> hok ha add alpha A m ->
  r1post ha add alpha (vget m x) A m (SRowRank1 a1 (vcj x) ha rm add alpha x A m).
Proof.
  intros Hx Sx N0 TA SA Hrm Ha Ho. unfold SRowRank1.
  assert (Esj : (if rm then 1 else asj A) = asj A) by (destruct rm; [symmetry|]; auto).
  rewrite Esj. clear Esj.
  assert (EL : forall i j, (ab A, ap A + Z.of_nat i * asi A + Z.of_nat j * asj A) = mloc A i j).
  { intros. reflexivity. }
  assert (EX : forall i, (vb x, vp x + Z.of_nat i) = vloc x i) by (intro; apply step1; auto).
  assert (EX0 : (vb x, vp x) = vloc x 0) by (unfold vloc; f_equal; lia).
  assert (EL0 : (ab A, ap A) = mloc A 0 0) by (unfold mloc; f_equal; lia).
  apply r1post_real; [exact Ho|].
  set (F := fun (q : nat) (m : hmem K) => _).
  set (N := acs A) in *.
  destruct (rows_scatter (N - 1) (fun q => S (S q)) (fun q k => mloc A (S q) k)
     (fun q k => kadd (if add then m (mloc A (S q) k) else k0)
        (kmul alpha (kmul (vget m x (S q)) (hc ha (vget m x k))))) F m) as [P Q].
  { intros i k i' k' Hi Hk Hi' Hk' E. destruct (TA (S i) k (S i') k'); unfold N in *; try lia. auto. }
  { intros q m' Hq Hm'.
    assert (Rx : forall k, (k < N)%nat -> m' (vloc x k) = m (vloc x k)).
    { intros k Hk. apply Hm'. intros i' k' Hi' Hk' E.
      destruct (SA k (S i') k') as [?|[? ?]]; unfold N in *; try lia; auto. }
    unfold F. rewrite EX. rewrite Rx by lia.
    destruct (keqb (m (vloc x (S q))) k0) eqn:E0; cbn [negb].
    - apply keqb_eq in E0.
      assert (V0 : vget m x (S q) = k0) by (unfold vget; rewrite E0; apply cjif0).
      destruct add; cbn [negb].
      + split; [|auto]. intros k Hk. rewrite V0. rewrite Hm'. { ring. }
        intros i' k' Hi' Hk' E. destruct (TA (S q) k (S i') k'); unfold N in *; try lia. auto.
      + destruct (upto_scatter (fun k => mloc A (S q) k) (fun _ => k0) (S (S q))
          (fun j m => hset m (ab A, ap A + Z.of_nat (S q) * asi A + Z.of_nat j * asj A) k0) m') as [P' Q'].
        * intros a b Hka Hkb E. destruct (TA (S q) a (S q) b); unfold N in *; try lia. auto.
        * intros. rewrite EL. reflexivity.
        * split; [|exact Q']. intros k Hk. rewrite P' by auto. rewrite V0. ring.
    - refine (upto_scatter (fun k => mloc A (S q) k) _ (S (S q)) _ m' _ _).
      + intros a b Hka Hkb E. destruct (TA (S q) a (S q) b); unfold N in *; try lia. auto.
      + intros j m2 Hj Hm2. rewrite EL, EX.
        assert (Rj : m2 (vloc x j) = m (vloc x j)).
        { rewrite Hm2. { apply Rx. lia. } intros k' Hk' E.
          destruct (SA j (S q) k') as [?|[? ?]]; unfold N in *; try lia; auto. }
        rewrite Rj, eqb_hc.
        assert (RA : m2 (mloc A (S q) j) = m (mloc A (S q) j)).
        { rewrite Hm2.
          - apply Hm'. intros i' k' Hi' Hk' E. destruct (TA (S q) j (S i') k'); unfold N in *; try lia. auto.
          - intros k' Hk' E. destruct (TA (S q) j (S q) k'); unfold N in *; try lia. auto. }
        rewrite RA. f_equal. fold (vget m x (S q)). fold (vget m x j).
        destruct a1; [rewrite (Ha eq_refl)|]; destruct add; ring. }
  clearbody F. rewrite EX0, EL0. set (m1 := upto (N - 1) F m) in *.
  assert (M00 : m1 (mloc A 0 0) = m (mloc A 0 0)).
  { apply Q. intros i k Hi Hk E. destruct (TA 0%nat 0%nat (S i) k); unfold N in *; try lia. auto. }
  split.
  - intros i j Hj Hi. destruct (Nat.eq_dec i 0) as [->|Ni].
    + replace j with 0%nat by lia. rewrite hset_same, M00.
      unfold vget. set (v := m (vloc x 0)). destruct (keqb v k0) eqn:E0.
      * apply keqb_eq in E0. rewrite E0, cjif0, hc0. destruct add; ring.
      * destruct ha, (vcj x); cbn [hc cjif]; rewrite ?cj_mul, ?cj_cj; destruct add; ring.
    + rewrite hset_other.
      2:{ intro E. destruct (TA i j 0%nat 0%nat); unfold N in *; try lia. auto. }
      specialize (P (i - 1)%nat j). replace (S (i - 1)) with i in P by lia. apply P; lia.
  - intros l Hl. rewrite hset_other by (intros ->; apply Hl; exists 0%nat, 0%nat; unfold N in *; auto with arith).
    apply Q. intros i k Hi Hk ->. apply Hl. exists (S i), k. unfold N in *; repeat split; auto; lia.
Qed.

Lemma SColRank1_spec (a1 ha cm add : bool) alpha x A m :
  vst x = 1 -> vs x = acs A -> tinj A -> csafe x A -> (cm = true -> asi A = 1) ->
  (a1 = true -> alpha = k1) -> hok ha add alpha A m ->
  r1post ha add alpha (vget m x) A m (SColRank1 a1 (vcj x) ha cm add alpha x A m).
Proof.
  intros Hx Sx TA SA Hcm Ha Ho. unfold SColRank1.
  assert (Esi : (if cm then 1 else asi A) = asi A) by (destruct cm; [symmetry|]; auto).
  rewrite Esi. clear Esi.
  assert (EL : forall j k, (ab A, ap A + Z.of_nat j * (asj A + asi A) + Z.of_nat k * asi A) = mloc A (j + k) j).
  { intros. unfold mloc. f_equal. lia. }
  assert (EX : forall i, (vb x, vp x + Z.of_nat i) = vloc x i) by (intro; apply step1; auto).
  apply r1post_real; [exact Ho|].
  set (F := fun (q : nat) (m : hmem K) => _).
  set (N := acs A) in *.
  destruct (rows_scatter N (fun q => S q) (fun q k => mloc A (N - 1 - q + k) (N - 1 - q))
     (fun q k => kadd (if add then m (mloc A (N - 1 - q + k) (N - 1 - q)) else k0)
        (kmul alpha (kmul (vget m x (N - 1 - q + k)) (hc ha (vget m x (N - 1 - q)))))) F m) as [P Q].
  { intros i k i' k' Hi Hk Hi' Hk' E.
    destruct (TA (N - 1 - i + k)%nat (N - 1 - i)%nat (N - 1 - i' + k')%nat (N - 1 - i')%nat); unfold N in *; try lia. auto. }
  { intros q m' Hq Hm'.
    assert (Rx : forall k, (k < N)%nat -> m' (vloc x k) = m (vloc x k)).
    { intros k Hk. apply Hm'. intros i' k' Hi' Hk' E.
      destruct (SA k (N - 1 - i' + k')%nat (N - 1 - i')%nat) as [? ?]; unfold N in *; try lia; auto. }
    unfold F. set (j := (N - 1 - q)%nat). replace (N - j)%nat with (S q) by (unfold j; lia).
    rewrite EX. rewrite Rx by (unfold j; lia).
    assert (Tj : forall k k', (k < S q)%nat -> (k' < S q)%nat -> mloc A (j + k) j = mloc A (j + k') j -> k = k').
    { intros k k' Hk Hk' E. destruct (TA (j + k)%nat j (j + k')%nat j); unfold j, N in *; try lia; auto. }
    assert (Tq : forall k i' k', (k < S q)%nat -> (i' < q)%nat -> (k' < S i')%nat -> mloc A (j + k) j <> mloc A (N - 1 - i' + k') (N - 1 - i')).
    { intros k i' k' Hk Hi' Hk' E.
      destruct (TA (j + k)%nat j (N - 1 - i' + k')%nat (N - 1 - i')%nat); unfold j, N in *; try lia; auto. }
    destruct (keqb (m (vloc x j)) k0) eqn:E0; cbn [negb].
    - apply keqb_eq in E0.
      assert (V0 : vget m x j = k0) by (unfold vget; rewrite E0; apply cjif0).
      destruct add; cbn [negb].
      + split; [|auto]. intros k Hk. rewrite V0, hc0. rewrite Hm' by (intros; apply Tq; auto). ring.
      + destruct (upto_scatter (fun k => mloc A (j + k) j) (fun _ => k0) (S q)
          (fun k m => hset m (ab A, ap A + Z.of_nat j * (asj A + asi A) + Z.of_nat k * asi A) k0) m') as [P' Q'].
        * intros a b Hka Hkb E. apply Tj; auto.
        * intros. rewrite EL. reflexivity.
        * split; [|exact Q']. intros k Hk. rewrite P' by auto. rewrite V0, hc0. ring.
    - refine (upto_scatter (fun k => mloc A (j + k) j) _ (S q) _ m' _ _).
      + intros a b Hka Hkb E. apply Tj; auto.
      + intros k m2 Hk Hm2. rewrite EL, EX.
        assert (Rj : m2 (vloc x (j + k)) = m (vloc x (j + k))).
        { rewrite Hm2. { apply Rx. unfold j. lia. } intros k' Hk' E.
          destruct (SA (j + k)%nat (j + k')%nat j) as [? ?]; unfold j, N in *; try lia; auto. }
        rewrite Rj, xor_hc.
        assert (RA : m2 (mloc A (j + k) j) = m (mloc A (j + k) j)).
        { rewrite Hm2.
          - apply Hm'. intros; apply Tq; auto.
          - intros k' Hk' E. apply Tj in E; auto; lia. }
        rewrite RA. f_equal. fold (vget m x (j + k)). fold (vget m x j).
        destruct a1; [rewrite (Ha eq_refl)|]; destruct add; ring. }
  clearbody F. split.
  - intros i j Hj Hi. specialize (P (N - 1 - j)%nat (i - j)%nat).
    replace (N - 1 - (N - 1 - j))%nat with j in P by (unfold N in *; lia). replace (j + (i - j))%nat with i in P by lia.
    apply P; unfold N in *; lia.
  - intros l Hl. apply Q. intros i k Hi Hk ->. apply Hl.
    exists (N - 1 - i + k)%nat, (N - 1 - i)%nat. unfold N in *; repeat split; lia.
Qed.

(** What DoRank1Update needs of x and A. *)
Definition ssafe x A : Prop := (isrm A = true \/ iscm A = false -> rsafe x A) /\ (isrm A = false -> iscm A = true -> csafe x A).

Lemma DoRank1_spec (a1 ha add : bool) alpha x A m :
  vst x = 1 -> vs x = acs A -> (0 < acs A)%nat -> tinj A -> ssafe x A ->
  (a1 = true -> alpha = k1) -> hok ha add alpha A m ->
  r1post ha add alpha (vget m x) A m (DoRank1 a1 (vcj x) ha add alpha x A m).
Proof.
  intros Hx Sx N0 TA [SR SC] Ha Ho. unfold DoRank1.
  destruct (isrm A) eqn:Er; [|destruct (iscm A) eqn:Ec].
  - apply SRowRank1_spec; auto. intros _. apply Z.eqb_eq. auto.
  - apply SColRank1_spec; auto. intros _. apply Z.eqb_eq. auto.
  - apply SRowRank1_spec; auto. discriminate.
Qed.

Lemma vcopy_spec b x m : vb x <> b ->
  (forall i, (i < vs x)%nat -> vget (vcopy b x m) (vtmp b (vs x)) i = vget m x i) /\
  (forall l, fst l <> b -> vcopy b x m l = m l).
Proof.
  intro Hb. unfold vcopy.
  destruct (upto_scatter (fun i => vloc (vtmp b (vs x)) i) (fun i => vget m x i) (vs x)
     (fun i m => hset m (vloc (vtmp b (vs x)) i) (vget m x i)) m) as [P Q].
  - intros i j Hi Hj E. apply (vtmp_inj b (vs x)) in E; auto.
  - intros i m' Hi Hm'. f_equal. unfold vget. rewrite Hm'; [reflexivity|].
    intros k Hk E. unfold vloc in E. injection E as E1 _. cbn in E1. auto.
  - split.
    + intros i Hi. unfold vget at 1. cbn [vtmp vcj cjif]. apply P; auto.
    + intros l Hl. apply Q. intros i Hi ->. apply Hl. reflexivity.
Qed.

Lemma tri_fst A l : tri A l -> fst l = ab A.
Proof. intros (i & j & _ & _ & ->). reflexivity. Qed.

(** The rank-1 update of a lower triangle that is not conjugated. *)
Lemma NonBlasRank1_core f (add : bool) alpha x A h m :
  acj A = false -> (0 < acs A)%nat -> tinj A -> (vst x = 1 -> ssafe x A) -> ab A = 0%nat -> vb x = 0%nat -> vs x = acs A ->
  hok (negb (kcplx K) || h) add alpha A m ->
  exists m2, NonBlasRank1 (S f) add alpha x (mkS A false h) m = Some m2 /\
    (forall i j, (j <= i)%nat -> (i < acs A)%nat ->
     m2 (mloc A i j) = kadd (if add then m (mloc A i j) else k0) (kmul alpha (kmul (vget m x i) (hc (negb (kcplx K) || h) (vget m x j))))) /\
    (forall l, fst l = 0%nat -> ~ tri A l -> m2 l = m l).
Proof.
  intros CA N0 TA SA BA Bx Sx Ho. cbn [NonBlasRank1 sup sa sh isherm]. rewrite CA.
  unfold isherm. cbn [sh]. rewrite real_part.
  set (a1 := kisreal alpha && keqb (kre alpha) k1).
  assert (Ha1 : a1 = true -> alpha = k1).
  { unfold a1. rewrite andb_true_iff. intros [E1 E2]. apply keqb_eq in E2. rewrite kre_real in E2; auto. }
  destruct (Z.eqb_spec (vst x) 1) as [Hx|Hx]; cbn [negb].
  - assert (G := DoRank1_spec a1 (negb (kcplx K) || h) add alpha x A m Hx Sx N0 TA (SA Hx) Ha1 Ho).
    destruct G as [P Q].
    destruct (vcj x); eexists; (split; [reflexivity|]); split; auto.
  - set (m1 := vcopy 1 x m).
    destruct (vcopy_spec 1 x m) as [V1 V2]. { lia. } fold m1 in V1, V2.
    assert (F1 : forall l, fst l = 0%nat -> m1 l = m l) by (intros l Hl; apply V2; lia).
    assert (DD : forall k i j, vloc (vtmp 1 (vs x)) k <> mloc A i j).
    { intros k i j E. unfold vloc, mloc in E. injection E as E1 _. cbn in E1. lia. }
    assert (G := DoRank1_spec a1 (negb (kcplx K) || h) add alpha (vtmp 1 (vs x)) A m1 eq_refl Sx N0 TA).
    destruct G as [P Q]; auto.
    { split; intros; intros k i j _ _ _ E; destruct (DD _ _ _ E). }
    { intro E. destruct (Ho E) as (? & ? & Hd). split; [|split]; auto. intros Ea i Hi. rewrite F1 by auto. auto. }
    eexists; (split; [reflexivity|]); split.
    + intros i j Hj Hi. cbn [vtmp vcj] in P. rewrite P by auto. rewrite !V1 by lia. rewrite F1 by auto. reflexivity.
    + intros l L0 Hl. cbn [vtmp vcj] in Q. rewrite Q by auto. auto.
Qed.

(** ** Views *)
Definition stored (S : smat) (i j : nat) : bool := (if sup S then i <=? j else j <=? i)%nat.
Definition in_sym (S : smat) (l : loc) : Prop :=
  exists i j, stored S i j = true /\ (i < acs (sa S))%nat /\ (j < acs (sa S))%nat /\ l = mloc (sa S) i j.

Definition upd_post (add : bool) (V : nat -> nat -> K) (S : smat) m m2 : Prop :=
  (forall i j, (i < acs (sa S))%nat -> (j < acs (sa S))%nat ->
     sget m2 S i j = kadd (if add then sget m S i j else k0) (V i j)) /\
  (forall l, fst l = 0%nat -> ~ in_sym S l -> m2 l = m l).
Definition Vsym (S : smat) (V : nat -> nat -> K) : Prop :=
  forall i j, (i < acs (sa S))%nat -> (j < acs (sa S))%nat -> V j i = hc (isherm (K:=K) S) (V i j).

Lemma hc_add ha (a b : K) : hc ha (kadd a b) = kadd (hc ha a) (hc ha b).
Proof. destruct ha; [apply cj_add|reflexivity]. Qed.
Lemma hc_mul ha (a b : K) : hc ha (kmul a b) = kmul (hc ha a) (hc ha b).
Proof. destruct ha; [apply cj_mul|reflexivity]. Qed.
Lemma hc_hc ha (a : K) : hc ha (hc ha a) = a.
Proof. destruct ha; [apply cj_cj|reflexivity]. Qed.
Lemma hc_cj ha (a : K) : hc ha (cj a) = cj (hc ha a).
Proof. destruct ha; reflexivity. Qed.

Lemma lift_lower (add : bool) V (S : smat) m m2 :
  sup S = false -> acj (sa S) = false -> Vsym S V ->
  (forall i j, (j <= i)%nat -> (i < acs (sa S))%nat ->
     m2 (mloc (sa S) i j) = kadd (if add then m (mloc (sa S) i j) else k0) (V i j)) ->
  (forall l, fst l = 0%nat -> ~ tri (sa S) l -> m2 l = m l) ->
  upd_post add V S m m2.
Proof.
  intros U C HV P Q. split.
  - intros i j Hi Hj. unfold sget, mget. rewrite U, C. cbn [cjif].
    destruct (Nat.leb_spec j i).
    + apply P; auto.
    + rewrite P by lia. rewrite hc_add, <- HV by auto. f_equal. destruct add; [reflexivity|apply hc0].
  - intros l L0 Hl. apply Q; auto. intros (i & j & Hj & Hi & E). apply Hl. exists i, j.
    unfold stored. rewrite U. repeat split; auto; [apply Nat.leb_le; auto|lia].
Qed.

Lemma isherm_cj (S : smat) (x : K) : issym (K:=K) S = true -> hc (isherm (K:=K) S) x = x.
Proof.
  unfold issym, isherm, hc. destruct (kcplx K) eqn:E; cbn.
  - destruct (sh S); cbn; [discriminate|reflexivity].
  - intros _. apply cj_real_type; auto.
Qed.

Lemma sget_strans m (S : smat) i j : sget m (strans S) i j = sget m S j i.
Proof.
  unfold sget, strans, isherm. cbn [sup sa sh]. rewrite !mget_tr.
  destruct (sup S); cbn [negb]; reflexivity.
Qed.
Lemma sget_sconj m (S : smat) i j : cjok K (acj (sa S)) -> sget m (sconj (K:=K) S) i j = cj (sget m S i j).
Proof.
  intro C. unfold sget, sconj, isherm. cbn [sup sa sh]. rewrite !mget_conj by auto.
  destruct (if sup S then (i <=? j)%nat else (j <=? i)%nat); [reflexivity|apply hc_cj].
Qed.
Lemma sget_swap m (S : smat) i j : (i <> j)%nat -> sget m S i j = hc (isherm (K:=K) S) (sget m S j i).
Proof.
  intro H. unfold sget. destruct (sup S); destruct (Nat.leb_spec i j), (Nat.leb_spec j i); try lia; rewrite ?hc_hc; reflexivity.
Qed.
Lemma sget_swap_sym m (S : smat) i j : issym (K:=K) S = true -> sget m S i j = sget m S j i.
Proof.
  intro H. destruct (Nat.eq_dec i j) as [->|Ne]; [reflexivity|].
  rewrite sget_swap by auto. apply isherm_cj; auto.
Qed.
(** A square view. *)
Definition square (S : smat) : Prop := ars (sa S) = acs (sa S).

Lemma in_sym_strans (S : smat) l : square S -> in_sym (strans S) l <-> in_sym S l.
Proof.
  intro SQ. split; intros (i & j & St & Hi & Hj & E); exists j, i; revert St Hi Hj E; unfold stored;
    cbn [strans sa sup tr acs]; rewrite mloc_tr, SQ; destruct (sup S); cbn [negb]; auto.
Qed.
Lemma lift_up (add : bool) V (S : smat) m m2 :
  square S -> cjok K (acj (sa S)) -> Vsym S V ->
  upd_post add V (if issym (K:=K) S then strans S else sadj (K:=K) S) m m2 -> upd_post add V S m m2.
Proof.
  intros SQ C HV [P Q]. destruct (issym (K:=K) S) eqn:E; split.
  - intros i j Hi Hj. cbn [strans sa tr acs] in P. specialize (P j i). rewrite !sget_strans in P.
    rewrite P by (rewrite SQ; auto). f_equal. rewrite HV by auto. apply isherm_cj; auto.
  - intros l L0 Hl. apply Q; auto. rewrite in_sym_strans; auto.
  - assert (I : isherm (K:=K) S = true).
    { revert E. unfold issym, isherm. destruct (kcplx K), (sh S); cbn; auto. }
    intros i j Hi Hj. unfold sadj in P. cbn [strans sconj sa tr mconj acs ars] in P.
    specialize (P j i). rewrite !sget_strans, !sget_sconj in P by auto.
    specialize (P ltac:(rewrite SQ; auto) ltac:(rewrite SQ; auto)).
    apply (f_equal cj) in P. rewrite cj_cj, cj_add in P. rewrite P. f_equal.
    + destruct add; [apply cj_cj|apply cj_0].
    + rewrite (HV i j) by auto. rewrite I. cbn [hc]. apply cj_cj.
  - intros l L0 Hl. apply Q; auto. unfold sadj. rewrite in_sym_strans; auto.
Qed.

Lemma lift_conj (add : bool) V (S : smat) m m2 :
  cjok K (acj (sa S)) ->
  upd_post add (fun i j => cj (V i j)) (sconj (K:=K) S) m m2 -> upd_post add V S m m2.
Proof.
  intros C [P Q]. split; [|exact Q]. intros i j Hi Hj. specialize (P i j Hi Hj).
  rewrite !sget_sconj in P by auto. apply (f_equal cj) in P. rewrite cj_cj, cj_add, cj_cj in P. rewrite P.
  f_equal. destruct add; [apply cj_cj|apply cj_0].
Qed.

(** The stored triangle as a lower triangle. *)
Definition lowview (S : smat) : mat := if sup S then tr (sa S) else sa S.

Definition hermok (add : bool) alpha (S : smat) m : Prop :=
  isherm (K:=K) S && kcplx K = true -> kreok /\ cj alpha = alpha /\
    (add = true -> forall i, (i < acs (sa S))%nat -> cj (sget m S i i) = sget m S i i).

Lemma hermok_cj (add : bool) alpha (S : smat) m : hermok add alpha S m -> isherm (K:=K) S = true -> cj alpha = alpha.
Proof.
  intros H I. destruct (kcplx K) eqn:E; [apply H; rewrite I; auto|apply cj_real_type; auto].
Qed.

Definition xyt (x : vec) m (ha : bool) alpha (i j : nat) : K := kmul alpha (kmul (vget m x i) (hc ha (vget m x j))).

Lemma Vsym_xyt (add : bool) alpha x (S : smat) m : hermok add alpha S m -> Vsym S (xyt x m (isherm (K:=K) S) alpha).
Proof.
  intros H i j Hi Hj. unfold xyt. rewrite !hc_mul, hc_hc.
  destruct (isherm (K:=K) S) eqn:I; cbn [hc]; [rewrite (hermok_cj _ _ _ _ H I)|]; ring.
Qed.

Lemma hermok_conj (add : bool) alpha (S : smat) m : cjok K (acj (sa S)) -> hermok add alpha S m -> hermok add (cj alpha) (sconj (K:=K) S) m.
Proof.
  intros C H E. destruct (H E) as (A1 & A2 & A3). split; [|split]; auto.
  - rewrite A2; auto.
  - intros Ea i Hi. rewrite !sget_sconj by auto. rewrite A3 by auto. apply A3; auto.
Qed.
Lemma hermok_strans (add : bool) alpha (S : smat) m : square S -> hermok add alpha S m -> hermok add alpha (strans S) m.
Proof.
  intros SQ H E. destruct (H E) as (A1 & A2 & A3). split; [|split]; auto.
  intros Ea i Hi. rewrite !sget_strans. apply A3; auto. rewrite <- SQ. exact Hi.
Qed.
Lemma hok_hermok (add : bool) alpha A h m : acj A = false -> hermok add alpha (mkS A false h) m ->
  hok (negb (kcplx K) || h) add alpha A m.
Proof.
  intros C H E. destruct (H E) as (A1 & A2 & A3). split; [|split]; auto.
  intros Ea i Hi. specialize (A3 Ea i Hi). unfold sget, mget in A3. cbn [sup sa] in A3. rewrite Nat.leb_refl, C in A3. exact A3.
Qed.

Lemma acj_conj A : acj A = true -> cjok K (acj A) -> acj (mconj K A) = false.
Proof. intros E C. cbn [mconj acj]. rewrite (C E), E. reflexivity. Qed.
Lemma cjok_conj b : cjok K (if kcplx K then negb b else false).
Proof. unfold cjok. destruct (kcplx K); auto. Qed.

Lemma NonBlasRank1_low f (add : bool) alpha x (S : smat) m :
  sup S = false -> (0 < acs (sa S))%nat -> tinj (sa S) -> (vst x = 1 -> ssafe x (sa S)) ->
  ab (sa S) = 0%nat -> vb x = 0%nat -> vs x = acs (sa S) -> cjok K (vcj x) -> cjok K (acj (sa S)) ->
  hermok add alpha S m ->
  exists m2, NonBlasRank1 (2 + f) add alpha x S m = Some m2 /\ upd_post add (xyt x m (isherm (K:=K) S) alpha) S m m2.
Proof.
  intros U N0 TA SA BA Bx Sx Cx CA Ho. destruct S as [A u h]. cbn [sup sa] in *. subst u.
  destruct (acj A) eqn:EA.
  - assert (CA' : acj (mconj K A) = false) by (apply acj_conj; rewrite ?EA; auto).
    destruct (NonBlasRank1_core f add (cj alpha) (vconj K x) (mconj K A) h m) as (m2 & E2 & P & Q); auto.
    { apply hok_hermok; auto. apply (hermok_conj add alpha (mkS A false h)); auto. cbn [sa]. rewrite EA. auto. }
    exists m2. split.
    { cbn [plus]. remember (S f) as f1 eqn:Ef. cbn [NonBlasRank1]. cbn [sup sa]. rewrite EA. exact E2. }
    apply lift_conj; [cbn [sa]; rewrite EA; auto|].
    apply lift_lower; auto.
    + intros i j Hi Hj. change (isherm (K:=K) (sconj (K:=K) (mkS A false h))) with (isherm (K:=K) (mkS A false h)).
      rewrite hc_cj. f_equal. exact (Vsym_xyt add alpha x (mkS A false h) m Ho i j Hi Hj).
    + intros i j Hj Hi. cbn [sconj sa] in *. rewrite P by auto. f_equal. unfold xyt. rewrite !vget_conj by auto.
      rewrite !cj_mul. f_equal. f_equal. unfold isherm. cbn [sh]. apply hc_cj.
  - destruct (NonBlasRank1_core (S f) add alpha x A h m) as (m2 & E2 & P & Q); auto. { apply hok_hermok; auto. }
    exists m2. split; [exact E2|]. apply lift_lower; auto. eapply Vsym_xyt; eauto.
Qed.

Theorem SRank1Update_spec (add : bool) alpha x (S : smat) m :
  square S -> tinj (lowview S) -> (vst x = 1 -> ssafe x (lowview S)) ->
  ab (sa S) = 0%nat -> vb x = 0%nat -> vs x = acs (sa S) -> cjok K (vcj x) -> cjok K (acj (sa S)) ->
  hermok add alpha S m -> (alpha = k0 -> add = true) ->
  exists m2, SRank1Update add alpha x S m = Some m2 /\ upd_post add (xyt x m (isherm (K:=K) S) alpha) S m m2.
Proof.
  intros SQ TA SA BA Bx Sx Cx CA Ho Hz. unfold SRank1Update.
  destruct (keqb alpha k0) eqn:Ea; cbn [negb andb].
  { apply keqb_eq in Ea. exists m. split; auto. split; auto. intros i j Hi Hj. rewrite (Hz Ea).
    unfold xyt. rewrite Ea. ring. }
  destruct (Nat.ltb_spec 0 (acs (sa S))) as [N0|N0].
  2:{ exists m. split; auto. split; auto. intros; lia. }
  destruct (sup S) eqn:U.
  2:{ unfold lowview in *. rewrite U in *. apply NonBlasRank1_low; auto. }
  unfold lowview in *. rewrite U in *. remember 2%nat as f1 eqn:Ef. cbn [NonBlasRank1]. subst f1. rewrite U.
  set (T := if issym (K:=K) S then strans S else sadj (K:=K) S).
  assert (G : exists m2, NonBlasRank1 2 add alpha x T m = Some m2 /\ upd_post add (xyt x m (isherm (K:=K) T) alpha) T m m2).
  { assert (Ec : cj alpha = alpha \/ issym (K:=K) S = true).
    { destruct (issym (K:=K) S) eqn:E; auto. left. apply (hermok_cj add alpha S m Ho).
      revert E. unfold issym, isherm. destruct (kcplx K), (sh S); cbn; auto. }
    apply (NonBlasRank1_low 0); unfold T; destruct (issym (K:=K) S) eqn:E; cbn [strans sadj sconj sup sa]; rewrite ?U; auto.
    - cbn. rewrite SQ. auto.
    - cbn. rewrite SQ. auto.
    - cbn. rewrite SQ. auto.
    - cbn. rewrite SQ. auto.
    - cbn. apply cjok_conj.
    - apply hermok_strans; auto.
    - unfold sadj. destruct Ec as [Ec|Ec]; [|discriminate]. rewrite <- Ec. apply hermok_strans; auto. apply hermok_conj; auto. }
  destruct G as (m2 & E2 & P2). exists m2. split; [exact E2|].
  apply lift_up; auto. { eapply Vsym_xyt; eauto. }
  replace (isherm (K:=K) S) with (isherm (K:=K) T); [exact P2|]. unfold T. destruct (issym (K:=K) S); reflexivity.
Qed.
End Proofs.
