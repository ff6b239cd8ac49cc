(** Proofs about MatVec.v. *)
From Coq Require Import ZArith Lia Bool List Ring Arith.
From Verif Require Import Base Scal MatMem MatVec.
Open Scope Z_scope.

(** ** Specification vocabulary *)

(** Different elements are at different addresses. *)
Definition minj (A : mat) : Prop :=
  forall i j i' j', (i < acs A)%nat -> (j < ars A)%nat -> (i' < acs A)%nat -> (j' < ars A)%nat ->
    mloc A i j = mloc A i' j' -> i = i' /\ j = j'.
Definition vinj (v : vec) : Prop :=
  forall i j, (i < vs v)%nat -> (j < vs v)%nat -> vloc v i = vloc v j -> i = j.
(** No element of x is an element of A; of x, an element of y. *)
Definition vm_disj (x : vec) (A : mat) : Prop :=
  forall i j k, (i < acs A)%nat -> (j < ars A)%nat -> (k < vs x)%nat -> vloc x k <> mloc A i j.
Definition vv_disj (x y : vec) : Prop :=
  forall i k, (k < vs x)%nat -> (i < vs y)%nat -> vloc x k <> vloc y i.
Definition in_mat (A : mat) (l : loc) : Prop :=
  exists i j, (i < acs A)%nat /\ (j < ars A)%nat /\ l = mloc A i j.
Definition in_vec (v : vec) (l : loc) : Prop := exists i, (i < vs v)%nat /\ l = vloc v i.

Section Proofs.
Context {K : scal}.
Add Ring Kring : (kring K).
Implicit Types (m : hmem K) (x y : vec) (A : mat) (alpha : K).

Lemma keqb_refl (a : K) : keqb a a = true.
Proof. apply keqb_eq. reflexivity. Qed.
Lemma keqb_false (a b : K) : keqb a b = false -> a <> b.
Proof. intros H E. apply keqb_eq in E. congruence. Qed.

Lemma cjif0 b : cjif b (k0 : K) = k0.
Proof. destruct b; cbn [cjif]; [apply cj_0|reflexivity]. Qed.
Lemma cjif_cjif b (a : K) : cjif b (cjif b a) = a.
Proof. destruct b; cbn [cjif]; [apply cj_cj|reflexivity]. Qed.

(** *** Elementwise helpers *)
Lemma vzero_spec y m : vinj y ->
  (forall i, (i < vs y)%nat -> vzero y m (vloc y i) = k0) /\
  (forall l, ~ in_vec y l -> vzero y m l = m l).
Proof.
  intro Hy. destruct (upto_scatter (vloc y) (fun _ => k0) (vs y)
    (fun i m => hset m (vloc y i) k0) m) as [A B]; auto.
  split; [exact A|]. intros l Hl. apply B. intros i Hi E. apply Hl. exists i. auto.
Qed.

Lemma mzero_spec A m : minj A ->
  (forall i j, (i < acs A)%nat -> (j < ars A)%nat -> mzero A m (mloc A i j) = k0) /\
  (forall l, ~ in_mat A l -> mzero A m l = m l).
Proof.
  intro HA. destruct (upto2_scatter (mloc A) (fun _ _ => k0) (acs A) (ars A)
    (fun j i m => hset m (mloc A i j) k0) m) as [P Q]; auto.
  split; [exact P|]. intros l Hl. apply Q. intros i j Hi Hj E. apply Hl. exists i, j. auto.
Qed.

Lemma vtmp_inj b n : vinj (vtmp b n).
Proof. intros i j _ _ E. unfold vloc, vtmp in E. cbn in E. injection E. lia. Qed.

Lemma vscale_spec b alpha x m : vb x <> b ->
  (forall i, (i < vs x)%nat -> vscale b alpha x m (vloc (vtmp b (vs x)) i) = kmul alpha (vget m x i)) /\
  (forall l, fst l <> b -> vscale b alpha x m l = m l).
Proof.
  intro Hb.
  destruct (upto_scatter (vloc (vtmp b (vs x))) (fun i => kmul alpha (vget m x i)) (vs x)
    (fun i m => hset m (vloc (vtmp b (vs x)) i) (kmul alpha (vget m x i))) m) as [A B].
  - intros i j Hi Hj. apply vtmp_inj; auto.
  - intros i m' Hi Hm'. f_equal. f_equal. unfold vget. rewrite Hm'; [reflexivity|].
    intros k Hk E. unfold vloc in E. cbn in E. injection E. auto.
  - split; [exact A|]. intros l Hl. apply B. intros i Hi ->. apply Hl. reflexivity.
Qed.

Lemma vscale_get b alpha x m i : vb x <> b -> (i < vs x)%nat ->
  vget (vscale b alpha x m) (vtmp b (vs x)) i = kmul alpha (vget m x i).
Proof. intros H Hi. apply (proj1 (vscale_spec b alpha x m H)); auto. Qed.

(** *** Rank-1 update *)
Lemma ColRank1Update_spec (add cm : bool) x y A m :
  minj A -> acj A = false -> vm_disj x A -> vm_disj y A -> vst x = 1 -> (cm = true -> asi A = 1) ->
  vs x = acs A -> vs y = ars A ->
  let m2 := ColRank1Update (vcj x) (vcj y) cm add x y A m in
  (forall i j, (i < acs A)%nat -> (j < ars A)%nat ->
     m2 (mloc A i j) = kadd (if add then m (mloc A i j) else k0) (kmul (vget m x i) (vget m y j))) /\
  (forall l, ~ in_mat A l -> m2 l = m l).
Proof.
  intros HA Hc Dx Dy Hx Hcm Sx Sy m2. unfold m2, ColRank1Update. clear m2.
  set (si := if cm then 1 else asi A).
  assert (Hsi : si = asi A) by (unfold si; destruct cm; [symmetry; auto|reflexivity]).
  match goal with |- context [upto (ars A) ?f m] => set (F := f) end.
  assert (G : (forall i j, (i < acs A)%nat -> (j < ars A)%nat ->
     upto (ars A) F m (mloc A i j) = kadd (if add then m (mloc A i j) else k0) (kmul (vget m x i) (vget m y j))) /\
     (forall l, (forall i j, (i < acs A)%nat -> (j < ars A)%nat -> l <> mloc A i j) -> upto (ars A) F m l = m l)).
  { apply (upto_inv (fun k m' =>
      (forall i j, (i < acs A)%nat -> (j < k)%nat ->
         m' (mloc A i j) = kadd (if add then m (mloc A i j) else k0) (kmul (vget m x i) (vget m y j))) /\
      (forall l, (forall i j, (i < acs A)%nat -> (j < k)%nat -> l <> mloc A i j) -> m' l = m l))).
    { split; [intros; lia|auto]. }
    intros j s Hj [H1 H2].
    set (yj := (vb y, vp y + Z.of_nat j * vst y)).
    assert (Ey : forall s', (forall l, (forall i, (i < acs A)%nat -> l <> mloc A i j) -> s' l = s l) ->
               s' yj = m (vloc y j)).
    { intros s' Hs'. rewrite Hs'.
      - apply H2. intros i j' Hi Hj' E. apply (Dy i j' j); auto; lia.
      - intros i Hi E. apply (Dy i j j); auto; lia. }
    assert (Loc : forall i, (ab A, ap A + Z.of_nat j * asj A + Z.of_nat i * si) = mloc A i j).
    { intro i. unfold mloc. rewrite Hsi. f_equal. lia. }
    assert (Inner : forall f v,
      (forall i m', (i < acs A)%nat -> (forall l, (forall k, (k < i)%nat -> l <> mloc A k j) -> m' l = s l) ->
         f i m' = hset m' (mloc A i j) (v i)) ->
      (forall i, (i < acs A)%nat -> v i = kadd (if add then m (mloc A i j) else k0) (kmul (vget m x i) (vget m y j))) ->
      (forall i j', (i < acs A)%nat -> (j' < j + 1)%nat ->
         upto (acs A) f s (mloc A i j') = kadd (if add then m (mloc A i j') else k0) (kmul (vget m x i) (vget m y j'))) /\
      (forall l, (forall i j', (i < acs A)%nat -> (j' < j + 1)%nat -> l <> mloc A i j') -> upto (acs A) f s l = m l)).
    { intros f v Hf Hv.
      destruct (upto_scatter (fun i => mloc A i j) v (acs A) f s) as [P Q]; auto.
      { intros i i' Hi Hi' E. apply (HA i j i' j); auto. }
      split.
      - intros i j' Hi Hj'. destruct (Nat.eq_dec j' j) as [->|Ne].
        + rewrite P by auto. apply Hv; auto.
        + rewrite Q. { apply H1; auto; lia. }
          intros i' Hi' E. apply Ne. apply (HA i j' i' j); auto; lia.
      - intros l Hl. rewrite Q. { apply H2. intros i j' Hi Hj'. apply Hl; auto; lia. }
        intros i Hi. apply Hl; auto. lia. }
    unfold F. fold yj. rewrite (Ey s) by auto.
    destruct (keqb (m (vloc y j)) k0) eqn:E0; cbn [negb].
    - apply keqb_eq in E0.
      assert (Y0 : vget m y j = k0) by (unfold vget; rewrite E0; apply cjif0).
      destruct add; cbn [negb].
      + split.
        * intros i j' Hi Hj'. destruct (Nat.eq_dec j' j) as [->|Ne]; [|apply H1; auto; lia].
          rewrite Y0, H2. { ring. }
          intros i' j' Hi' Hj'' E. destruct (HA i j i' j'); auto; lia.
        * intros l Hl. apply H2. intros i j' Hi Hj'. apply Hl; auto; lia.
      + apply (Inner _ (fun _ => k0)).
        * intros i m' Hi _. rewrite Loc. reflexivity.
        * intros i Hi. rewrite Y0. ring.
    - apply (Inner _ (fun i => kadd (if add then m (mloc A i j) else k0) (kmul (vget m x i) (vget m y j)))); auto.
      intros i m' Hi Hm'. rewrite Loc.
      assert (Ex : m' (vb x, vp x + Z.of_nat i) = m (vloc x i)).
      { assert (El : (vb x, vp x + Z.of_nat i) = vloc x i) by (unfold vloc; rewrite Hx; f_equal; lia).
        rewrite El, Hm'; [apply H2|].
        - intros i' j' Hi' Hj' E. apply (Dx i' j' i); auto; lia.
        - intros k Hk E. apply (Dx k j i); auto; lia. }
      assert (Ey' : m' yj = m (vloc y j)).
      { rewrite Hm'; [apply Ey; auto|]. intros k Hk E. apply (Dy k j j); auto; lia. }
      rewrite Ex, Ey'. f_equal. unfold vget. destruct add; [|ring].
      f_equal. rewrite Hm'; [apply H2|].
      + intros i' j' Hi' Hj' E. destruct (HA i j i' j'); auto; lia.
      + intros k Hk E. destruct (HA i j k j); auto; lia. }
  destruct G as [P Q]. split; [exact P|].
  intros l Hl. apply Q. intros i j Hi Hj E. apply Hl. exists i, j. auto.
Qed.

Definition rank1_post (add : bool) alpha x y A m m2 : Prop :=
  (forall i j, (i < acs A)%nat -> (j < ars A)%nat ->
     mget m2 A i j = kadd (if add then mget m A i j else k0) (kmul alpha (kmul (vget m x i) (vget m y j)))) /\
  (forall l, fst l = 0%nat -> ~ in_mat A l -> m2 l = m l).

Lemma UnitARank1Update_spec (add : bool) x y A m :
  minj A -> acj A = false -> vm_disj x A -> vm_disj y A -> vst x = 1 ->
  vs x = acs A -> vs y = ars A ->
  let m2 := UnitARank1Update (vcj x) add x y A m in
  (forall i j, (i < acs A)%nat -> (j < ars A)%nat ->
     m2 (mloc A i j) = kadd (if add then m (mloc A i j) else k0) (kmul (vget m x i) (vget m y j))) /\
  (forall l, ~ in_mat A l -> m2 l = m l).
Proof.
  intros HA Hc Dx Dy Hx Sx Sy. unfold UnitARank1Update.
  replace (if iscm A then _ else _) with (ColRank1Update (vcj x) (vcj y) (iscm A) add x y A m)
    by (destruct (iscm A), (vcj y); reflexivity).
  apply ColRank1Update_spec; auto. apply Z.eqb_eq.
Qed.

Lemma real_part alpha : (if kisreal alpha then kre alpha else alpha) = alpha.
Proof. destruct (kisreal alpha) eqn:E; [apply kre_real; auto|reflexivity]. Qed.

Lemma blk_disj x A : vb x <> ab A -> vm_disj x A.
Proof. intros H i j k _ _ _ E. unfold vloc, mloc in E. injection E. auto. Qed.

Lemma NonBlasRank1Update_spec (add : bool) alpha x y A m :
  minj A -> acj A = false -> vm_disj x A -> vm_disj y A ->
  ab A = 0%nat -> vb x = 0%nat -> vb y = 0%nat ->
  vs x = acs A -> vs y = ars A ->
  rank1_post add alpha x y A m (NonBlasRank1Update add alpha x y A m).
Proof.
  intros HA Hc Dx Dy BA Bx By Sx Sy. unfold NonBlasRank1Update.
  rewrite real_part.
  assert (Hg : forall m' i j, mget m' A i j = m' (mloc A i j)) by (intros; unfold mget; rewrite Hc; reflexivity).
  destruct (Z.eqb_spec (vst x) 1) as [Hx|Hx]; cbn [negb orb andb].
  - destruct (keqb alpha k1) eqn:E1; cbn [negb].
    + apply keqb_eq in E1. subst alpha.
      replace (if vcj x then _ else _) with (UnitARank1Update (vcj x) add x y A m) by (destruct (vcj x); reflexivity).
      destruct (UnitARank1Update_spec add x y A m) as [P Q]; auto.
      split; [|intros; apply Q; auto]. intros i j Hi Hj. rewrite !Hg, P by auto. ring.
    + destruct (vs y <? vs x)%nat.
      * set (m1 := vscale 1 alpha y m).
        assert (F1 : forall l, fst l = 0%nat -> m1 l = m l).
        { intros l Hl. apply (vscale_spec 1 alpha y m); lia. }
        replace (if vcj x then _ else _) with (UnitARank1Update (vcj x) add x (vtmp 1 (vs y)) A m1)
          by (destruct (vcj x); reflexivity).
        destruct (UnitARank1Update_spec add x (vtmp 1 (vs y)) A m1) as [P Q]; auto.
        { apply blk_disj. cbn. lia. }
        split.
        -- intros i j Hi Hj. rewrite !Hg, P by auto. unfold m1 at 3. rewrite vscale_get by lia.
           rewrite F1 by (cbn; auto). unfold vget at 1. rewrite F1 by (cbn; auto).
           unfold vget. ring.
        -- intros l L0 Hl. rewrite Q, F1; auto.
      * set (m1 := vscale 1 alpha x m).
        assert (F1 : forall l, fst l = 0%nat -> m1 l = m l).
        { intros l Hl. apply (vscale_spec 1 alpha x m); lia. }
        destruct (UnitARank1Update_spec add (vtmp 1 (vs x)) y A m1) as [P Q]; auto.
        { apply blk_disj. cbn. lia. }
        split.
        -- intros i j Hi Hj. rewrite !Hg. cbn [vtmp vcj] in P. rewrite P by auto. unfold m1 at 2. rewrite vscale_get by lia.
           rewrite F1 by (cbn; auto). unfold vget at 2. rewrite F1 by (cbn; auto).
           unfold vget. ring.
        -- intros l L0 Hl. cbn [vtmp vcj] in Q. rewrite Q, F1; auto.
  - set (m1 := vscale 1 alpha x m).
    assert (F1 : forall l, fst l = 0%nat -> m1 l = m l).
    { intros l Hl. apply (vscale_spec 1 alpha x m); lia. }
    destruct (UnitARank1Update_spec add (vtmp 1 (vs x)) y A m1) as [P Q]; auto.
    { apply blk_disj. cbn. lia. }
    split.
    + intros i j Hi Hj. rewrite !Hg. cbn [vtmp vcj] in P. rewrite P by auto. unfold m1 at 2. rewrite vscale_get by lia.
      rewrite F1 by (cbn; auto). unfold vget at 2. rewrite F1 by (cbn; auto).
      unfold vget. ring.
    + intros l L0 Hl. cbn [vtmp vcj] in Q. rewrite Q, F1; auto.
Qed.

Lemma in_mat_tr A l : in_mat (tr A) l <-> in_mat A l.
Proof.
  unfold in_mat. cbn [tr acs ars]. split; intros (i & j & Hi & Hj & E); exists j, i; repeat split; auto;
    rewrite E; unfold mloc; cbn; f_equal; lia.
Qed.
Lemma mloc_tr A i j : mloc (tr A) i j = mloc A j i.
Proof. unfold mloc. cbn. f_equal. lia. Qed.
Lemma minj_tr A : minj A -> minj (tr A).
Proof.
  intros H i j i' j'. cbn [tr acs ars]. rewrite !mloc_tr. intros Hi Hj Hi' Hj' E.
  destruct (H j i j' i'); auto.
Qed.
Lemma vm_disj_tr x A : vm_disj x A -> vm_disj x (tr A).
Proof. intros H i j k. cbn [tr acs ars]. rewrite mloc_tr. intros. apply H; auto. Qed.
Lemma mget_tr m A i j : mget m (tr A) i j = mget m A j i.
Proof. unfold mget. rewrite mloc_tr. reflexivity. Qed.

Lemma vget_conj m x i : cjok K (vcj x) -> vget m (vconj K x) i = cj (vget m x i).
Proof.
  intro H. unfold vget, vconj, cjif. cbn [vcj].
  change (vloc (mkVec (vb x) (vp x) (vs x) (vst x) (if kcplx K then negb (vcj x) else false)) i) with (vloc x i).
  destruct (kcplx K) eqn:E.
  - destruct (vcj x); cbn [negb]; [rewrite cj_cj|]; reflexivity.
  - destruct (vcj x); [specialize (H eq_refl); congruence|]. symmetry. apply cj_real_type; auto.
Qed.
Lemma mget_conj m A i j : cjok K (acj A) -> mget m (mconj K A) i j = cj (mget m A i j).
Proof.
  intro H. unfold mget, mconj, cjif. cbn [acj].
  change (mloc (mkMat (ab A) (ap A) (acs A) (ars A) (asi A) (asj A) (if kcplx K then negb (acj A) else false)) i j) with (mloc A i j).
  destruct (kcplx K) eqn:E.
  - destruct (acj A); cbn [negb]; [rewrite cj_cj|]; reflexivity.
  - destruct (acj A); [specialize (H eq_refl); congruence|]. symmetry. apply cj_real_type; auto.
Qed.

Lemma R1S f (add : bool) alpha x y A m :
  Rank1Update_fuel (S f) add alpha x y A m =
    if (0 <? acs A)%nat && (0 <? ars A)%nat then
      if keqb alpha k0 then
        if negb add then Some (mzero A m) else Some m
      else if acj A then
        Rank1Update_fuel f add (cj alpha) (vconj K x) (vconj K y) (mconj K A) m
      else if negb (iscm A) && isrm A then
        Rank1Update_fuel f add alpha y x (tr A) m
      else Some (NonBlasRank1Update add alpha x y A m)
    else Some m.
Proof. reflexivity. Qed.

Theorem Rank1Update_spec (add : bool) alpha x y A m :
  minj A -> vm_disj x A -> vm_disj y A ->
  ab A = 0%nat -> vb x = 0%nat -> vb y = 0%nat ->
  vs x = acs A -> vs y = ars A ->
  cjok K (vcj x) -> cjok K (vcj y) -> cjok K (acj A) ->
  exists m2, Rank1Update add alpha x y A m = Some m2 /\ rank1_post add alpha x y A m m2.
Proof.
  intros HA Dx Dy BA Bx By Sx Sy Cx Cy CA.
  assert (S1 : forall f alpha x y A, minj A -> vm_disj x A -> vm_disj y A ->
    ab A = 0%nat -> vb x = 0%nat -> vb y = 0%nat -> vs x = acs A -> vs y = ars A -> acj A = false ->
    (negb (iscm A) && isrm A = false) ->
    exists m2, Rank1Update_fuel (S f) add alpha x y A m = Some m2 /\ rank1_post add alpha x y A m m2).
  { clear. intros f alpha x y A HA Dx Dy BA Bx By Sx Sy CA NR. rewrite R1S.
    destruct ((0 <? acs A)%nat && (0 <? ars A)%nat) eqn:E0.
    2:{ exists m. split; [reflexivity|]. split; [|auto]. intros i j Hi Hj.
        rewrite andb_false_iff, !Nat.ltb_ge in E0. lia. }
    destruct (keqb alpha k0) eqn:Ea.
    - apply keqb_eq in Ea. subst alpha. destruct (mzero_spec A m HA) as [P Q].
      destruct add; cbn [negb]; eexists; (split; [reflexivity|]); split.
      + intros i j Hi Hj. ring.
      + auto.
      + intros i j Hi Hj. unfold mget at 1. rewrite P by auto. rewrite cjif0. ring.
      + intros; apply Q; auto.
    - rewrite CA, NR. eexists. split; [reflexivity|]. apply NonBlasRank1Update_spec; auto. }
  assert (S2 : forall f alpha x y A, minj A -> vm_disj x A -> vm_disj y A ->
    ab A = 0%nat -> vb x = 0%nat -> vb y = 0%nat -> vs x = acs A -> vs y = ars A -> acj A = false ->
    exists m2, Rank1Update_fuel (S (S f)) add alpha x y A m = Some m2 /\ rank1_post add alpha x y A m m2).
  { clear - S1. intros f alpha x y A HA Dx Dy BA Bx By Sx Sy CA.
    destruct (negb (iscm A) && isrm A) eqn:NR; [|apply S1; auto].
    destruct (S1 f alpha y x (tr A)) as (m2 & E2 & P & Q); auto using minj_tr, vm_disj_tr.
    { cbn [tr iscm isrm asi asj]. unfold iscm, isrm in *. cbn [tr asi asj].
      rewrite andb_true_iff in NR. destruct NR as [_ ->]. reflexivity. }
    rewrite R1S.
    destruct ((0 <? acs A)%nat && (0 <? ars A)%nat) eqn:E0.
    2:{ exists m. split; [reflexivity|]. split; [|auto]. intros i j Hi Hj.
        rewrite andb_false_iff, !Nat.ltb_ge in E0. lia. }
    destruct (keqb alpha k0) eqn:Ea.
    - apply keqb_eq in Ea. subst alpha. destruct (mzero_spec A m HA) as [P' Q'].
      destruct add; cbn [negb]; eexists; (split; [reflexivity|]); split.
      + intros i j Hi Hj. ring.
      + auto.
      + intros i j Hi Hj. unfold mget at 1. rewrite P' by auto. rewrite cjif0. ring.
      + intros; apply Q'; auto.
    - rewrite CA, NR. 
      exists m2. split; [exact E2|]. split.
      + intros i j Hi Hj. specialize (P j i Hj Hi). rewrite !mget_tr in P. rewrite P. ring.
      + intros l L0 Hl. apply Q; auto. rewrite in_mat_tr. auto. }
  unfold Rank1Update. destruct (acj A) eqn:EA; [|apply S2; auto].
  destruct (S2 1%nat (cj alpha) (vconj K x) (vconj K y) (mconj K A)) as (m2 & E2 & P & Q); auto.
  { cbn [mconj acj]. rewrite (CA eq_refl), EA. reflexivity. }
  rewrite R1S.
  destruct ((0 <? acs A)%nat && (0 <? ars A)%nat) eqn:E0.
  2:{ exists m. split; [reflexivity|]. split; [|auto]. intros i j Hi Hj.
      rewrite andb_false_iff, !Nat.ltb_ge in E0. lia. }
  destruct (keqb alpha k0) eqn:Ea.
  - apply keqb_eq in Ea. subst alpha. destruct (mzero_spec A m HA) as [P' Q'].
    destruct add; cbn [negb]; eexists; (split; [reflexivity|]); split.
    + intros i j Hi Hj. ring.
    + auto.
    + intros i j Hi Hj. unfold mget at 1. rewrite P' by auto. rewrite cjif0. ring.
    + intros; apply Q'; auto.
  - rewrite EA. exists m2. split; [exact E2|]. split.
    + intros i j Hi Hj. specialize (P i j Hi Hj).
      rewrite !mget_conj in P by (rewrite EA; auto). rewrite !vget_conj in P by auto.
      apply (f_equal cj) in P. rewrite cj_cj in P. rewrite P.
      rewrite cj_add, !cj_mul, !cj_cj. f_equal. destruct add; [apply cj_cj|apply cj_0].
    + intros l L0 Hl. apply Q; auto.
Qed.

(** *** Matrix times vector *)

(** Row i of A is still intact when y(0..i-1) have been written. *)
Definition row_safe A y : Prop :=
  forall i j k, (i < acs A)%nat -> (j < ars A)%nat -> (k < i)%nat -> vloc y k <> mloc A i j.
(** Column 0 can be read while y is written, the others do not meet y. *)
Definition col_safe A y : Prop :=
  forall i j k, (i < acs A)%nat -> (j < ars A)%nat -> (k < acs A)%nat -> (j = 0%nat -> (k < i)%nat) ->
    vloc y k <> mloc A i j.

Definition mv (m : hmem K) A x (i : nat) : K := sum (ars A) (fun j => kmul (vget m x j) (mget m A i j)).

Definition mv_post (add : bool) A x y m m2 : Prop :=
  (forall i, (i < vs y)%nat -> m2 (vloc y i) = kadd (if add then m (vloc y i) else k0) (mv m A x i)) /\
  (forall l, ~ in_vec y l -> m2 l = m l).

Lemma step1 v i : vst v = 1 -> (vb v, vp v + Z.of_nat i) = vloc v i.
Proof. intro H. unfold vloc. rewrite H. f_equal. lia. Qed.
Lemma vinj1 v : vst v = 1 -> vinj v.
Proof. intros H i j _ _ E. unfold vloc in E. rewrite H in E. injection E. lia. Qed.

Lemma RowMultMV_spec (add rm : bool) A x y m :
  vst x = 1 -> vst y = 1 -> vs x = ars A -> vs y = acs A -> vv_disj x y -> row_safe A y ->
  (rm = true -> asj A = 1) ->
  mv_post add A x y m (RowMultMV add (vcj x) (acj A) rm A x y m).
Proof.
  intros Hx Hy Sx Sy D R Hrm. unfold RowMultMV.
  set (sj := if rm then 1 else asj A).
  assert (Hsj : sj = asj A) by (unfold sj; destruct rm; [symmetry; auto|reflexivity]).
  match goal with |- context [upto (acs A) ?f m] =>
    destruct (upto_scatter (vloc y) (fun i => kadd (if add then m (vloc y i) else k0) (mv m A x i)) (acs A) f m) as [P Q] end.
  - intros i j Hi Hj. apply (vinj1 y Hy); lia.
  - intros i m' Hi Hm'. rewrite (step1 y i Hy). f_equal.
    match goal with |- context [sum (ars A) ?f] => assert (E : sum (ars A) f = mv m A x i) end.
    { apply sum_ext. intros j Hj. f_equal.
      - rewrite (step1 x j Hx). unfold vget. rewrite Hm'; [reflexivity|].
        intros k Hk. apply D; lia.
      - unfold mget. f_equal. rewrite Hm'.
        + unfold mloc. rewrite Hsj. reflexivity.
        + intros k Hk E. apply (R i j k); auto. rewrite <- E. unfold mloc. rewrite Hsj. reflexivity. }
    rewrite E. destruct add; [|ring]. rewrite Hm'; [reflexivity|].
    intros k Hk E2. apply (vinj1 y Hy) in E2; lia.
  - split.
    + intros i Hi. apply P. lia.
    + intros l Hl. apply Q. intros i Hi E. apply Hl. exists i. split; [lia|auto].
Qed.

Lemma colstep_spec (first : bool) si j A x y (s : hmem K) :
  vst x = 1 -> vst y = 1 -> vs y = acs A -> si = asi A ->
  (forall i k, (i < acs A)%nat -> (k < i)%nat -> vloc y k <> mloc A i j) ->
  (forall i, (i < vs y)%nat ->
     colstep first (vcj x) (acj A) si j A x y s (vloc y i) =
     kadd (if first then k0 else s (vloc y i)) (kmul (vget s x j) (mget s A i j))) /\
  (forall l, ~ in_vec y l -> colstep first (vcj x) (acj A) si j A x y s l = s l).
Proof.
  intros Hx Hy Sy Hsi Hs. unfold colstep.
  match goal with |- context [upto (acs A) ?f s] =>
    destruct (upto_scatter (vloc y) (fun i => kadd (if first then k0 else s (vloc y i)) (kmul (vget s x j) (mget s A i j))) (acs A) f s) as [P Q] end.
  - intros i k Hi Hk. apply (vinj1 y Hy); lia.
  - intros i m' Hi Hm'. rewrite (step1 y i Hy), (step1 x j Hx). f_equal.
    assert (E : m' (ab A, ap A + Z.of_nat j * asj A + Z.of_nat i * si) = s (mloc A i j)).
    { replace (ab A, ap A + Z.of_nat j * asj A + Z.of_nat i * si) with (mloc A i j)
        by (unfold mloc; rewrite Hsi; f_equal; lia).
      apply Hm'. intros k Hk E. apply (Hs i k Hi Hk). auto. }
    rewrite E. unfold vget, mget. destruct first; [ring|]. rewrite Hm'; [reflexivity|].
    intros k Hk E2. apply (vinj1 y Hy) in E2; lia.
  - split.
    + intros i Hi. apply P. lia.
    + intros l Hl. apply Q. intros i Hi E. apply Hl. exists i. split; [lia|auto].
Qed.

Lemma ColMultMV_spec (add cm : bool) A x y m :
  vst x = 1 -> vst y = 1 -> vs x = ars A -> vs y = acs A -> (0 < ars A)%nat -> vv_disj x y -> col_safe A y ->
  (cm = true -> asi A = 1) ->
  mv_post add A x y m (ColMultMV add (vcj x) (acj A) cm A x y m).
Proof.
  intros Hx Hy Sx Sy HN D R Hcm. unfold ColMultMV.
  set (si := if cm then 1 else asi A).
  assert (Hsi : si = asi A) by (unfold si; destruct cm; [symmetry; auto|reflexivity]).
  pose (pre := fun (j : nat) (s : hmem K) =>
    (forall i, (i < vs y)%nat -> s (vloc y i) =
       kadd (if add then m (vloc y i) else k0) (sum j (fun j => kmul (vget m x j) (mget m A i j)))) /\
    (forall l, ~ in_vec y l -> s l = m l) /\ (j = 0%nat -> s = m)).
  assert (Xin : forall s j, (forall l, ~ in_vec y l -> s l = m l) -> (j < ars A)%nat -> s (vloc x j) = m (vloc x j)).
  { intros s j H Hj. apply H. intros (i & Hi & E). apply (D i j); auto. lia. }
  set (m1 := if negb add then _ else m).
  set (j0 := if negb add then 1%nat else 0%nat).
  assert (H1 : pre j0 m1).
  { unfold pre, j0, m1. destruct add; cbn [negb].
    - split; [|auto]. intros i Hi. cbn [sum]. ring.
    - rewrite <- and_assoc. split; [|discriminate].
      assert (E0 : (vb x, vp x) = vloc x 0) by (unfold vloc; f_equal; lia).
      rewrite E0. destruct (keqb (m (vloc x 0)) k0) eqn:Ek.
      + apply keqb_eq in Ek. destruct (vzero_spec y m (vinj1 y Hy)) as [P Q]. split; [|exact Q].
        intros i Hi. rewrite P by auto. cbn [sum]. unfold vget. rewrite Ek, cjif0. ring.
      + destruct (colstep_spec true si 0 A x y m) as [P Q]; auto.
        { intros i k Hi Hk. apply R; auto. lia. }
        split; [|exact Q]. intros i Hi. rewrite P by auto. cbn [sum]. ring. }
  assert (G : pre (j0 + (ars A - j0))%nat
    (upto (ars A - j0) (fun k m => let j := (j0 + k)%nat in
       if negb (keqb (m (vb x, vp x + Z.of_nat j)) k0) then colstep false (vcj x) (acj A) si j A x y m else m) m1)).
  { apply (upto_inv (fun k s => pre (j0 + k)%nat s)).
    { rewrite Nat.add_0_r. exact H1. }
    intros k s Hk (P & Q & Z0). cbn zeta. set (j := (j0 + k)%nat) in *.
    assert (Hj : (j < ars A)%nat) by (unfold j in *; lia).
    replace (j0 + (k + 1))%nat with (S j) by lia.
    unfold pre. rewrite <- and_assoc. split; [|discriminate].
    rewrite (step1 x j Hx), (Xin s j Q Hj).
    destruct (keqb (m (vloc x j)) k0) eqn:Ek; cbn [negb].
    - apply keqb_eq in Ek. split; [|exact Q]. intros i Hi. rewrite P by auto. cbn [sum].
      unfold vget at 3. rewrite Ek, cjif0. ring.
    - destruct (colstep_spec false si j A x y s) as [P' Q']; auto.
      { intros i k' Hi Hk'. apply R; auto. lia. }
      split.
      + intros i Hi. rewrite P', P by auto. cbn [sum].
        assert (Ev : vget s x j = vget m x j) by (unfold vget; rewrite (Xin s j Q Hj); reflexivity).
        assert (Em : mget s A i j = mget m A i j).
        { unfold mget. f_equal. destruct (Nat.eq_dec j 0) as [Ej|Ej].
          - rewrite (Z0 Ej). reflexivity.
          - apply Q. intros (k' & Hk' & E). apply (R i j k'); auto; lia. }
        rewrite Ev, Em. ring.
      + intros l Hl. rewrite Q', Q; auto. }
  replace (j0 + (ars A - j0))%nat with (ars A) in G by (unfold j0; destruct add; cbn [negb]; lia).
  destruct G as (G1 & G2 & _). split; auto.
Qed.

(** What makes the kernels safe on A and on every column range of it. *)
Definition mv_safe A y : Prop :=
  forall j1 j2, (j1 < j2)%nat -> (j2 <= ars A)%nat ->
    row_safe (colRange A j1 j2) y /\ (isrm A = false -> col_safe (colRange A j1 j2) y).

Lemma colRange_all A : colRange A 0 (ars A) = A.
Proof.
  destruct A as [b p M N si sj c]. unfold colRange. cbn [ab ap acs ars asi asj acj].
  rewrite Nat.sub_0_r. f_equal. lia.
Qed.

Lemma mloc_colRange A j1 j2 i j : mloc (colRange A j1 j2) i j = mloc A i (j1 + j).
Proof. unfold mloc. cbn. f_equal. lia. Qed.

Lemma mv_safe_disj A y : vs y = acs A -> vm_disj y A -> mv_safe A y.
Proof.
  intros S D j1 j2 H1 H2. split; [intros i j k|intros _ i j k]; rewrite mloc_colRange; cbn [colRange acs ars];
    intros; apply D; lia.
Qed.

(** y starts where A starts and is contiguous; A is row major, or its columns
    follow one another in memory. *)
Definition starts_at A y : Prop :=
  vb y = ab A /\ vp y = ap A /\ vst y = 1 /\ 0 < asi A /\ 0 < asj A /\
  (asj A = 1 \/ Z.of_nat (acs A) * asi A <= asj A).

Lemma mv_safe_starts A y : vs y = acs A -> starts_at A y -> mv_safe A y.
Proof.
  intros S (Eb & Ep & Hy & Hi & Hj & HA) j1 j2 H1 H2.
  split; [intros i j k|intros Nr i j k]; rewrite mloc_colRange; cbn [colRange acs ars].
  - intros Li Lj Lk E. unfold vloc, mloc in E. rewrite Ep, Hy in E. injection E as _ E. nia.
  - unfold isrm in Nr. apply Z.eqb_neq in Nr. destruct HA as [HA|HA]; [congruence|].
    intros Li Lj Lk J0 E. unfold vloc, mloc in E. rewrite Ep, Hy in E. injection E as _ E.
    destruct (Nat.eq_dec (j1 + j) 0) as [Z0|Z0].
    + assert (k < i)%nat by (apply J0; lia). rewrite Z0 in E. nia.
    + assert (Z.of_nat k < Z.of_nat (acs A)) by lia.
      assert (Z.of_nat (acs A) <= Z.of_nat (acs A) * asi A) by nia.
      assert (asj A <= Z.of_nat (j1 + j) * asj A) by nia.
      nia.
Qed.

Lemma UnitAMultMV1_spec (add : bool) A x y m :
  vst x = 1 -> vst y = 1 -> vs x = ars A -> vs y = acs A -> (0 < ars A)%nat -> vv_disj x y ->
  row_safe A y -> (isrm A = false -> col_safe A y) ->
  mv_post add A x y m (UnitAMultMV1 add (vcj x) A x y m).
Proof.
  intros Hx Hy Sx Sy HN D R C. unfold UnitAMultMV1.
  destruct (isrm A) eqn:Er. { apply RowMultMV_spec; auto. intros _. apply Z.eqb_eq. exact Er. }
  destruct (iscm A) eqn:Ec. { apply ColMultMV_spec; auto. intros _. apply Z.eqb_eq. exact Ec. }
  destruct (acs A <=? ars A)%nat.
  - apply RowMultMV_spec; auto. discriminate.
  - apply ColMultMV_spec; auto. discriminate.
Qed.

Lemma scan_hi_spec x m n : vst x = 1 ->
  (scan_hi x m n <= n)%nat /\
  (forall k, (scan_hi x m n <= k)%nat -> (k < n)%nat -> m (vloc x k) = k0) /\
  (scan_hi x m n <> 0%nat -> m (vloc x (scan_hi x m n - 1)) <> k0).
Proof.
  intro Hx. induction n as [|n (IH1 & IH2 & IH3)]; cbn [scan_hi].
  - repeat split; try lia.
  - rewrite (step1 x n Hx). destruct (keqb (m (vloc x n)) k0) eqn:E.
    + apply keqb_eq in E. repeat split; auto. intros k Hk Hk'.
      destruct (Nat.eq_dec k n) as [->|]; auto. apply IH2; lia.
    + apply keqb_false in E. repeat split; try lia. intros _. replace (S n - 1)%nat with n by lia. exact E.
Qed.

Lemma scan_lo_spec x m f j p : vst x = 1 ->
  (j <= p)%nat -> (p < j + f)%nat -> m (vloc x p) <> k0 ->
  (j <= scan_lo x m f j <= p)%nat /\
  (forall k, (j <= k)%nat -> (k < scan_lo x m f j)%nat -> m (vloc x k) = k0).
Proof.
  intro Hx. revert j. induction f as [|f IH]; intros j Hj Hp Hn; cbn [scan_lo]; [lia|].
  rewrite (step1 x j Hx). destruct (keqb (m (vloc x j)) k0) eqn:E.
  - apply keqb_eq in E. assert (j <> p) by (intros ->; auto).
    destruct (IH (j + 1)%nat) as [A B]; auto; try lia. split; [lia|].
    intros k Hk Hk'. destruct (Nat.eq_dec k j) as [->|]; auto. apply B; lia.
  - split; [lia|]. intros; lia.
Qed.

Lemma sum_0 n (f : nat -> K) : (forall k, (k < n)%nat -> f k = k0) -> sum n f = k0.
Proof. intro H. induction n; cbn [sum]; [reflexivity|]. rewrite IHn, H by (try lia; intros; apply H; lia). ring. Qed.
Lemma sum_app n1 n2 (f : nat -> K) : sum (n1 + n2) f = kadd (sum n1 f) (sum n2 (fun k => f (n1 + k)%nat)).
Proof.
  induction n2 as [|n2 IH]; cbn [sum].
  - rewrite Nat.add_0_r. ring.
  - replace (n1 + S n2)%nat with (S (n1 + n2)) by lia. cbn [sum]. rewrite IH. ring.
Qed.
Lemma sum_trim n j1 j2 (f : nat -> K) : (j1 <= j2)%nat -> (j2 <= n)%nat ->
  (forall k, (k < n)%nat -> (k < j1)%nat \/ (j2 <= k)%nat -> f k = k0) ->
  sum n f = sum (j2 - j1) (fun k => f (j1 + k)%nat).
Proof.
  intros H1 H2 H. replace n with (j1 + ((j2 - j1) + (n - j2)))%nat at 1 by lia.
  rewrite sum_app, sum_app, (sum_0 j1), (sum_0 (n - j2)).
  - ring.
  - intros k Hk. apply H; lia.
  - intros k Hk. apply H; lia.
Qed.

Lemma UnitAMultMV_spec (add : bool) A x y m :
  vst x = 1 -> vst y = 1 -> vs x = ars A -> vs y = acs A -> (0 < ars A)%nat -> vv_disj x y ->
  mv_safe A y ->
  mv_post add A x y m (UnitAMultMV add (vcj x) A x y m).
Proof.
  intros Hx Hy Sx Sy HN D R. unfold UnitAMultMV.
  destruct (scan_hi_spec x m (vs x) Hx) as (H1 & H2 & H3).
  set (j2 := scan_hi x m (vs x)) in *.
  destruct (Nat.eqb_spec j2 0) as [E2|E2].
  - assert (Z0 : forall i, mv m A x i = k0).
    { intro i. apply sum_0. intros k Hk. unfold vget. rewrite H2, cjif0 by lia. ring. }
    destruct add; cbn [negb].
    + split; auto. intros i Hi. rewrite Z0. ring.
    + destruct (vzero_spec y m (vinj1 y Hy)) as [P Q]. split; auto.
      intros i Hi. rewrite P, Z0 by auto. ring.
  - destruct (scan_lo_spec x m (vs x) 0 (j2 - 1)) as [L1 L2]; auto; try lia.
    set (j1 := scan_lo x m (vs x) 0) in *.
    assert (G : mv_post add A x y m (UnitAMultMV1 add (vcj x) (colRange A j1 j2) (subVector x j1 j2) y m)).
    { destruct (R j1 j2) as [R1 R2]; try lia.
      destruct (UnitAMultMV1_spec add (colRange A j1 j2) (subVector x j1 j2) y m) as [P Q];
        cbn [subVector colRange vst vs ars acs]; auto; try lia.
      { intros i k Hk Hi. cbn [subVector vs] in Hk.
        assert (E : vloc (subVector x j1 j2) k = vloc x (j1 + k)) by (unfold vloc; cbn; f_equal; lia).
        rewrite E. apply D; lia. }
      split; [|exact Q].
      intros i Hi. cbn [subVector vcj] in P. rewrite P by auto. f_equal. unfold mv. cbn [colRange ars].
      rewrite (sum_trim (ars A) j1 j2); try lia.
      - apply sum_ext. intros k Hk. unfold vget, mget. rewrite mloc_colRange. cbn [subVector vcj colRange acj].
        replace (vloc (subVector x j1 j2) k) with (vloc x (j1 + k)) by (unfold vloc; cbn; f_equal; lia).
        reflexivity.
      - intros k Hk [Hl|Hl]; unfold vget; [rewrite L2 by lia|rewrite H2 by lia]; rewrite cjif0; ring. }
    destruct (Nat.eqb_spec j1 0) as [Ea|Ea]; [|exact G].
    destruct (Nat.eqb_spec j2 (vs x)) as [Eb|Eb]; [|exact G]. cbn [andb].
    rewrite Ea, Eb, Sx, colRange_all in G.
    replace (subVector x 0 (ars A)) with x in G; [exact G|].
    rewrite <- Sx. destruct x as [b p n st c]. unfold subVector. cbn [vb vp vs vst vcj]. rewrite Nat.sub_0_r. f_equal. lia.
Qed.

Definition multmv_post (add : bool) alpha A x y m m2 : Prop :=
  (forall i, (i < vs y)%nat ->
     vget m2 y i = kadd (if add then vget m y i else k0)
                        (kmul alpha (sum (ars A) (fun j => kmul (mget m A i j) (vget m x j))))) /\
  (forall l, fst l = 0%nat -> ~ in_vec y l -> m2 l = m l).

Lemma sum_scale n alpha (f : nat -> K) : sum n (fun k => kmul alpha (f k)) = kmul alpha (sum n f).
Proof. induction n; cbn [sum]; [ring|]. rewrite IHn. ring. Qed.

Lemma vb_disj x y : vb x <> vb y -> vv_disj x y.
Proof. intros H i k _ _ E. unfold vloc in E. injection E. auto. Qed.

Lemma vaxpy_spec (add : bool) alpha yy y m : vinj y -> vb yy <> vb y ->
  (forall i, (i < vs y)%nat -> vaxpy add alpha yy y m (vloc y i) =
     kadd (if add then m (vloc y i) else k0) (kmul alpha (vget m yy i))) /\
  (forall l, ~ in_vec y l -> vaxpy add alpha yy y m l = m l).
Proof.
  intros Hy Hb. unfold vaxpy.
  match goal with |- context [upto (vs y) ?f m] =>
    destruct (upto_scatter (vloc y) (fun i => kadd (if add then m (vloc y i) else k0) (kmul alpha (vget m yy i))) (vs y) f m) as [P Q] end; auto.
  - intros i m' Hi Hm'. f_equal. unfold vget. rewrite (Hm' (vloc yy i)).
    + destruct add; [|ring]. rewrite Hm'; [reflexivity|]. intros k Hk E. apply Hy in E; lia.
    + intros k Hk E. unfold vloc in E. injection E. auto.
  - split; [exact P|]. intros l Hl. apply Q. intros i Hi E. apply Hl. exists i. auto.
Qed.
Lemma vadd_vaxpy (add : bool) yy y m l : vinj y -> vb yy <> vb y -> vadd add yy y m l = vaxpy add k1 yy y m l.
Proof.
  intros _ _. unfold vadd, vaxpy. apply (f_equal (fun f => f l)).
  assert (G : forall n, upto n (fun i m => hset m (vloc y i) (let t := vget m yy i in if add then kadd (m (vloc y i)) t else t)) m
    = upto n (fun i m => hset m (vloc y i) (let t := kmul k1 (vget m yy i) in if add then kadd (m (vloc y i)) t else t)) m).
  { induction n as [|n IH]; [reflexivity|]. cbn [upto]. cbn zeta in *. rewrite IH. f_equal.
    destruct add; [f_equal|]; ring. }
  apply G.
Qed.

Lemma NonBlasMultMV_spec (add : bool) alpha A x y m :
  vinj y -> vcj y = false ->
  ab A = 0%nat -> vb x = 0%nat -> vb y = 0%nat -> vs x = ars A -> vs y = acs A -> (0 < ars A)%nat ->
  (vst x <> 1 \/ vp x = vp y \/ vv_disj x y) ->
  (vst y <> 1 \/ vm_disj y A \/ starts_at A y) ->
  multmv_post add alpha A x y m (NonBlasMultMV add alpha A x y m).
Proof.
  intros Iy Cy BA Bx By Sx Sy HN Hxy HAy. unfold NonBlasMultMV. rewrite real_part.
  assert (Hg : forall m' i, vget m' y i = m' (vloc y i)) by (intros; unfold vget; rewrite Cy; reflexivity).
  assert (Safe : vst y = 1 -> mv_safe A y).
  { intro E. destruct HAy as [H|[H|H]]; [contradiction|apply mv_safe_disj; auto|apply mv_safe_starts; auto]. }
  assert (Tsafe : mv_safe A (vtmp 2 (vs y))).
  { apply mv_safe_disj; [auto|]. apply blk_disj. cbn. lia. }
  match goal with |- multmv_post _ _ _ _ _ _ (if ?b then _ else _) => destruct b eqn:Eb end.
  - (* x is copied *)
    clear Eb. set (m1 := vscale 1 alpha x m). set (xx := vtmp 1 (vs x)).
    assert (F1 : forall l, fst l = 0%nat -> m1 l = m l).
    { intros l Hl. apply (vscale_spec 1 alpha x m); lia. }
    assert (Gx : forall i, mv m1 A xx i = kmul alpha (sum (ars A) (fun j => kmul (mget m A i j) (vget m x j)))).
    { intro i. unfold mv. rewrite <- sum_scale. apply sum_ext. intros j Hj.
      unfold m1 at 1, xx. rewrite vscale_get by lia. unfold mget. rewrite F1 by (cbn; auto). ring. }
    destruct (Z.eqb_spec (vst y) 1) as [Ey|Ey]; cbn [negb].
    + destruct (UnitAMultMV_spec add A xx y m1) as [P Q]; auto.
      { apply vb_disj. cbn. lia. }
      cbn [xx vtmp vcj] in P, Q. split.
      * intros i Hi. rewrite !Hg, P, Gx, F1 by auto. reflexivity.
      * intros l L0 Hl. rewrite Q, F1; auto.
    + destruct (UnitAMultMV_spec false A xx (vtmp 2 (vs y)) m1) as [P Q]; auto.
      { apply vb_disj. cbn. lia. }
      cbn [xx vtmp vcj] in P, Q.
      set (m2 := UnitAMultMV false false A xx (vtmp 2 (vs y)) m1) in *.
      assert (F2 : forall l, fst l = 0%nat -> m2 l = m l).
      { intros l L0. unfold m2. rewrite Q; [apply F1; auto|]. intros (k & _ & E). subst l. discriminate L0. }
      destruct (vaxpy_spec add k1 (vtmp 2 (vs y)) y m2) as [P2 Q2]; auto.
      { cbn. lia. }
      split.
      * intros i Hi. rewrite !Hg, vadd_vaxpy by (auto; cbn; lia). rewrite P2, F2 by auto.
        unfold vget at 1. cbn [vtmp vcj cjif]. change (mkVec 2 0 (vs y) 1 false) with (vtmp 2 (vs y)).
        unfold m2. rewrite P, Gx by auto. ring.
      * intros l L0 Hl. rewrite vadd_vaxpy by (auto; cbn; lia). rewrite Q2, F2; auto.
  - rewrite !orb_false_iff in Eb. destruct Eb as [[Ex Es] _].
    rewrite negb_false_iff, Z.eqb_eq in Ex.
    assert (D : vv_disj x y).
    { destruct Hxy as [H|[H|H]]; [contradiction| |exact H].
      unfold sameVV in Es. rewrite Bx, By, H, Z.eqb_refl in Es. discriminate. }
    match goal with |- multmv_post _ _ _ _ _ _ (if ?b then _ else _) => destruct b eqn:E2 end.
    + clear E2. destruct (UnitAMultMV_spec false A x (vtmp 2 (vs y)) m) as [P Q]; auto.
      { apply vb_disj. cbn. lia. }
      set (m2 := UnitAMultMV false (vcj x) A x (vtmp 2 (vs y)) m) in *.
      assert (F2 : forall l, fst l = 0%nat -> m2 l = m l).
      { intros l L0. unfold m2. rewrite Q; auto. intros (k & _ & E). subst l. discriminate L0. }
      destruct (vaxpy_spec add alpha (vtmp 2 (vs y)) y m2) as [P2 Q2]; auto.
      { cbn. lia. }
      split.
      * intros i Hi. rewrite !Hg, P2, F2 by auto.
        unfold vget at 1. cbn [vtmp vcj cjif]. change (mkVec 2 0 (vs y) 1 false) with (vtmp 2 (vs y)).
        unfold m2. rewrite P by auto. f_equal. unfold mv.
        rewrite (sum_ext _ _ (fun j => kmul (mget m A i j) (vget m x j))) by (intros; ring). ring.
      * intros l L0 Hl. rewrite Q2, F2; auto.
    + rewrite orb_false_iff, !negb_false_iff, Z.eqb_eq in E2. destruct E2 as [Ey Ea].
      apply keqb_eq in Ea. subst alpha.
      destruct (UnitAMultMV_spec add A x y m) as [P Q]; auto.
      split; [|auto]. intros i Hi. rewrite !Hg, P by auto. unfold mv.
      rewrite (sum_ext _ _ (fun j => kmul (mget m A i j) (vget m x j))) by (intros; ring). ring.
Qed.

Lemma cj_sum n (f : nat -> K) : cj (sum n f) = sum n (fun k => cj (f k)).
Proof. induction n; cbn [sum]; [apply cj_0|]. rewrite cj_add, IHn. reflexivity. Qed.

Theorem MultMV_spec (add : bool) alpha A x y m :
  vinj y -> cjok K (vcj x) -> cjok K (vcj y) -> cjok K (acj A) ->
  ab A = 0%nat -> vb x = 0%nat -> vb y = 0%nat -> vs x = ars A -> vs y = acs A ->
  (vst x <> 1 \/ vp x = vp y \/ vv_disj x y) ->
  (vst y <> 1 \/ vm_disj y A \/ starts_at A y) ->
  multmv_post add alpha A x y m (MultMV add alpha A x y m).
Proof.
  intros Iy Cx Cy CA BA Bx By Sx Sy Hxy HAy. unfold MultMV.
  destruct (Nat.ltb_spec 0 (vs y)) as [Hn|Hn]; [|split; [intros; lia|auto]].
  destruct (Nat.eqb_spec (vs x) 0) as [E0|E0]; cbn [orb].
  1: assert (Z0 : forall i, kmul alpha (sum (ars A) (fun j => kmul (mget m A i j) (vget m x j))) = k0)
       by (intro i; rewrite <- Sx, E0; cbn [sum]; ring).
  2: destruct (keqb alpha k0) eqn:Ea.
  2: assert (Z0 : forall i, kmul alpha (sum (ars A) (fun j => kmul (mget m A i j) (vget m x j))) = k0)
       by (intro i; apply keqb_eq in Ea; subst alpha; ring).
  1,2: destruct add; cbn [negb];
    [split; [intros i Hi; rewrite Z0; ring|auto]
    |destruct (vzero_spec y m Iy) as [P Q]; split; [|intros; apply Q; auto];
     intros i Hi; unfold vget at 1; rewrite P, Z0, cjif0 by auto; ring].
  destruct (vcj y) eqn:Ey.
  - destruct (NonBlasMultMV_spec add (cj alpha) (mconj K A) (vconj K x) (vconj K y) m) as [P Q]; auto.
    { cbn [vconj vcj]. rewrite (Cy eq_refl), Ey. reflexivity. }
    { cbn [mconj ars]. lia. }
    split.
    + intros i Hi. specialize (P i Hi). rewrite !vget_conj in P by (rewrite Ey; auto).
      apply (f_equal cj) in P. rewrite cj_cj in P. rewrite P. rewrite cj_add, cj_mul, cj_cj, cj_sum.
      f_equal; [destruct add; [apply cj_cj|apply cj_0]|]. f_equal.
      cbn [mconj ars]. apply sum_ext. intros k Hk.
      rewrite mget_conj, vget_conj by auto. rewrite cj_mul, !cj_cj. reflexivity.
    + intros l L0 Hl. apply Q; auto.
  - apply NonBlasMultMV_spec; auto. lia.
Qed.
End Proofs.
