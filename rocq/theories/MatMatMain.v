(** Proofs about MatMat.v: the dispatch, and the real and complex instances of the
    blocked algorithm. *)
From Coq Require Import ZArith Lia Bool List Ring Arith.
From Verif Require Import Base Scal ScalC MatMem MatVec MatVecProofs MatMat MatMatProofs MatMatBlock.
Import ListNotations.
Open Scope Z_scope.

(** Failures of the allocations of the blocked algorithm that do no harm: none, or
    only at its very start, or the result does not depend on the old C. *)
Definition safe_alloc (K : scal) (add : bool) (alloc : nat -> bool) : Prop :=
  add = false \/ kcplx K = false \/ alloc O = false \/ (forall q, (q < 4)%nat -> alloc q = true).

Section Main.
Context {K : scal}.
Add Ring Kring4 : (kring K).
Implicit Types (m : hmem K) (A B C : mat) (alpha : K).

Lemma prod_post_ext (add : bool) alpha A B C m m' m2 :
  (ab C < 4)%nat -> (ab A < 4)%nat -> (ab B < 4)%nat ->
  (forall l, (fst l < 4)%nat -> m' l = m l) ->
  prod_post add alpha A B C m' m2 -> prod_post add alpha A B C m m2.
Proof.
  intros HC HA HB E [P Q]. split.
  - intros i j Hi Hj. rewrite P by auto. f_equal.
    + destruct add; [apply E; exact HC|reflexivity].
    + f_equal. apply mm_ext; intros; apply E; assumption.
  - intros l Hl Hn. rewrite Q by auto. apply E. exact Hl.
Qed.

(** Replacing B, or A, by a copy scaled with alpha. *)
Lemma prod_post_B2 (add : bool) alpha A B B2 C m m' m2 :
  (ab C < 4)%nat -> (ab A < 4)%nat -> (ab C <> ab B2) -> (ab A <> ab B2) -> ars A = acs B -> ars B = ars C ->
  (forall l, fst l <> ab B2 -> m' l = m l) ->
  (forall q j, (q < acs B)%nat -> (j < ars B)%nat -> mget m' B2 q j = kmul alpha (mget m B q j)) ->
  prod_post add k1 A B2 C m' m2 ->
  (forall i j, (i < acs C)%nat -> (j < ars C)%nat ->
     m2 (mloc C i j) = kadd (if add then m (mloc C i j) else k0) (kmul alpha (mm m A B i j))) /\
  (forall l, (fst l < 4)%nat -> fst l <> ab B2 -> ~ in_mat C l -> m2 l = m l).
Proof.
  intros HC HA NC NA SK SJ E EB [P Q]. split.
  - intros i j Hi Hj. rewrite P by auto. f_equal.
    + destruct add; [apply E; exact NC|reflexivity].
    + rewrite (Rmul_1_l (kring K)). unfold mm. rewrite <- sum_scale. apply sum_ext. intros q Hq.
      unfold mget at 1. rewrite E by exact NA. fold (mget m A i q). rewrite EB by lia. ring.
  - intros l Hl Hn1 Hn2. rewrite Q by auto. apply E. exact Hn1.
Qed.

Lemma prod_post_A2 (add : bool) alpha A A2 B C m m' m2 :
  (ab C < 4)%nat -> (ab B < 4)%nat -> (ab C <> ab A2) -> (ab B <> ab A2) -> ars A2 = ars A -> acs A = acs C ->
  (forall l, fst l <> ab A2 -> m' l = m l) ->
  (forall i q, (i < acs A)%nat -> (q < ars A)%nat -> mget m' A2 i q = kmul alpha (mget m A i q)) ->
  prod_post add k1 A2 B C m' m2 ->
  (forall i j, (i < acs C)%nat -> (j < ars C)%nat ->
     m2 (mloc C i j) = kadd (if add then m (mloc C i j) else k0) (kmul alpha (mm m A B i j))) /\
  (forall l, (fst l < 4)%nat -> fst l <> ab A2 -> ~ in_mat C l -> m2 l = m l).
Proof.
  intros HC HB NC NB SK SI E EA [P Q]. split.
  - intros i j Hi Hj. rewrite P by auto. f_equal.
    + destruct add; [apply E; exact NC|reflexivity].
    + rewrite (Rmul_1_l (kring K)). unfold mm. rewrite SK, <- sum_scale. apply sum_ext. intros q Hq.
      rewrite EA by lia. unfold mget at 2. rewrite E by exact NB. fold (mget m B q j). ring.
  - intros l Hl Hn1 Hn2. rewrite Q by auto. apply E. exact Hn1.
Qed.

(** *** The slices of 16 columns *)
Lemma mloc_mcols C j1 j2 i j : mloc (mcols C j1 j2) i j = mloc C i (j1 + j).
Proof. unfold mloc, mcols. cbn [ab ap asi asj]. f_equal. lia. Qed.

Lemma slice_spec (add : bool) alpha A B C j1 j2 m :
  minj C -> (ab C < 4)%nat -> (ab A < 4)%nat -> (ab B < 4)%nat -> asj A = 1 ->
  (0 < acs C)%nat -> ars A = acs B -> ars B = ars C -> (j1 < j2)%nat -> (j2 <= ars C)%nat ->
  exists m2, slice add alpha A B C j1 j2 m = Some m2 /\
    (forall i j, (i < acs C)%nat -> (j1 <= j < j2)%nat ->
       m2 (mloc C i j) = kadd (if add then m (mloc C i j) else k0) (kmul alpha (mm m A B i j))) /\
    (forall l, (fst l < 4)%nat -> (forall i j, (i < acs C)%nat -> (j1 <= j < j2)%nat -> l <> mloc C i j) -> m2 l = m l).
Proof.
  intros HC bC bA bB RA HM SK SJ L12 L2.
  unfold slice.
  set (B1 := mkMat 4 0 (acs B) (j2 - j1) 1 (Z.of_nat (acs B)) false).
  destruct (scatter_mat B1 (fun i j => mget m B i (j1 + j))
    (fun j i m => hset m (4%nat, Z.of_nat i + Z.of_nat j * Z.of_nat (acs B)) (mget m B i (j1 + j))) m) as [P1 Q1].
  { exact (mtmp_inj 4 (acs B) (j2 - j1)). }
  { intros i j m' Hi Hj Hm' _. f_equal.
    - unfold mloc, B1. cbn [ab ap asi asj]. f_equal. lia.
    - unfold mget. rewrite Hm'; [reflexivity|]. apply blk_not_in. cbn [fst mloc B1 ab]. lia. }
  cbn [acs ars B1] in P1. fold B1 in P1. change (acs B1) with (acs B) in Q1, P1. change (ars B1) with (j2 - j1)%nat in Q1, P1.
  set (mb := upto (j2 - j1) _ m) in *.
  assert (E : forall l, fst l <> 4%nat -> mb l = m l) by (intros l Hl; apply Q1, blk_not_in; exact Hl).
  destruct (RCC_spec add alpha A B1 (mcols C j1 j2) mb) as (m2 & R & P2 & Q2); auto;
    try (cbn [ab ars acs mcols B1]; lia).
  { intros i j i' j' Hi Hj Hi' Hj' X. cbn [acs ars mcols] in *. rewrite !mloc_mcols in X. apply HC in X; lia. }
  exists m2. split; [exact R|]. split.
  - intros i j Hi Hj. specialize (P2 i (j - j1)%nat). rewrite mloc_mcols in P2.
    replace (j1 + (j - j1))%nat with j in P2 by lia.
    rewrite P2 by (cbn [acs ars mcols]; lia). f_equal.
    + destruct add; [apply E; cbn [fst mloc]; lia|reflexivity].
    + f_equal. apply sum_ext. intros q Hq. f_equal.
      * unfold mget. rewrite E by (cbn [fst mloc]; lia). reflexivity.
      * change (mget mb B1 q (j - j1)) with (mb (mloc B1 q (j - j1))). rewrite P1 by lia. f_equal. lia.
  - intros l Hl Hn. rewrite Q2; [apply E; lia|exact Hl|].
    intros (i & j & Hi & Hj & X). cbn [acs ars mcols] in Hi, Hj. rewrite mloc_mcols in X.
    apply (Hn i (j1 + j)%nat); [exact Hi|lia|exact X].
Qed.

Lemma slices_spec (add : bool) alpha A B C m :
  minj C -> (ab C < 4)%nat -> (ab A < 4)%nat -> (ab B < 4)%nat -> asj A = 1 ->
  (0 < acs C)%nat -> (0 < ars C)%nat -> acs A = acs C -> ars A = acs B -> ars B = ars C ->
  mm_disj A C -> mm_disj B C ->
  exists m2, slices add alpha A B C m = Some m2 /\ prod_post add alpha A B C m m2.
Proof.
  intros HC bC bA bB RA HM HN SI SK SJ DA DB. unfold slices. rewrite SJ.
  set (n := ((ars C - 1) / 16)%nat).
  assert (Hn : (16 * n < ars C <= 16 * n + 16)%nat).
  { pose proof (Nat.div_mod (ars C - 1) 16 ltac:(lia)). pose proof (Nat.mod_upper_bound (ars C - 1) 16 ltac:(lia)).
    fold n in H. lia. }
  (* the product does not change while only C changes *)
  assert (Mm : forall m', (forall l, (fst l < 4)%nat -> ~ in_mat C l -> m' l = m l) ->
     forall i j, (i < acs C)%nat -> (j < ars C)%nat -> mm m' A B i j = mm m A B i j).
  { intros m' H i j Hi Hj. apply mm_ext; intros q Hq; apply H; auto; intro X.
    - apply (DA (mloc A i q)); [exists i, q; split; [lia|split; [lia|reflexivity]]|exact X].
    - apply (DB (mloc B q j)); [exists q, j; split; [lia|split; [lia|reflexivity]]|exact X]. }
  set (I := fun (c : nat) (om : option (hmem K)) => exists m', om = Some m' /\
     (forall i j, (i < acs C)%nat -> (j < ars C)%nat ->
        m' (mloc C i j) = if (j <? c)%nat then kadd (if add then m (mloc C i j) else k0) (kmul alpha (mm m A B i j))
                          else m (mloc C i j)) /\
     (forall l, (fst l < 4)%nat -> ~ in_mat C l -> m' l = m l)).
  assert (St : forall c c' om, (c < c')%nat -> (c' <= ars C)%nat -> I c om ->
     I c' (obind om (slice add alpha A B C c c'))).
  { intros c c' om L1 L2 (m' & -> & P & Q). cbn [obind].
    destruct (slice_spec add alpha A B C c c' m') as (m2 & R & P2 & Q2); auto.
    exists m2. split; [exact R|]. split.
    - intros i j Hi Hj. destruct (Nat.lt_ge_cases j c) as [Lj|Gj]; [|destruct (Nat.lt_ge_cases j c') as [Lj'|Gj']].
      + rewrite Q2.
        * rewrite P by auto. rewrite (proj2 (Nat.ltb_lt j c)), (proj2 (Nat.ltb_lt j c')) by lia. reflexivity.
        * exact bC.
        * intros i' j' Hi' Hj' X. apply HC in X; lia.
      + rewrite P2 by lia. rewrite (proj2 (Nat.ltb_lt j c')) by lia. rewrite Mm by auto.
        rewrite P by auto. rewrite (proj2 (Nat.ltb_ge j c)) by lia. reflexivity.
      + rewrite Q2.
        * rewrite P by auto. rewrite (proj2 (Nat.ltb_ge j c)), (proj2 (Nat.ltb_ge j c')) by lia. reflexivity.
        * exact bC.
        * intros i' j' Hi' Hj' X. apply HC in X; lia.
    - intros l Hl Hn2. rewrite Q2; [apply Q; auto|exact Hl|].
      intros i j Hi Hj X. apply Hn2. exists i, j. split; [exact Hi|split; [lia|exact X]]. }
  assert (I0 : I O (Some m)).
  { exists m. split; [reflexivity|]. split; [|auto]. intros i j _ _. destruct (Nat.ltb_spec j 0); [lia|reflexivity]. }
  assert (In : I (16 * n)%nat (upto n (fun t om => obind om (slice add alpha A B C (16 * t) (16 * (t + 1)))) (Some m))).
  { apply (upto_inv (fun t om => I (16 * t)%nat om)); [exact I0|]. intros t om Ht HI. apply St; auto; lia. }
  destruct (St (16 * n)%nat (ars C) _ ltac:(lia) ltac:(lia) In) as (m2 & R & P & Q).
  exists m2. split; [exact R|]. split; [|exact Q].
  intros i j Hi Hj. rewrite P by auto. rewrite (proj2 (Nat.ltb_lt j (ars C))) by lia. reflexivity.
Qed.

(** *** Dispatch *)
Section Dispatch.
Variable calls : bool -> K -> mat -> mat -> mat -> list (hmem K -> hmem K).
Variable alloc : nat -> bool.

(** What is asked of the blocked algorithm for K. *)
Definition calls_ok (add : bool) : Prop := forall alpha A B C m,
  minj C -> (ab C < 4)%nat -> (ab A < 4)%nat -> (ab B < 4)%nat -> acj C = false ->
  cjok K (acj A) -> cjok K (acj B) -> acs A = acs C -> ars A = acs B -> ars B = ars C ->
  mm_disj A C -> mm_disj B C ->
  match run_calls alloc 0 (calls add alpha A B C) m with
  | (m', true) => prod_post add alpha A B C m m'
  | (m', false) => (forall l, (fst l < 4)%nat -> ~ in_mat C l -> m' l = m l) /\
                   (add = true -> forall l, (fst l < 4)%nat -> m' l = m l)
  end.

Section Adds.
Variable add : bool.
Hypothesis Hcalls : calls_ok add.

Section Args.
Variables (alpha : K) (A B C : mat).
Hypothesis HC : minj C.
Hypothesis bC : (ab C < 4)%nat.
Hypothesis bA : (ab A < 4)%nat.
Hypothesis bB : (ab B < 4)%nat.
Hypothesis cC : acj C = false.
Hypothesis cA : cjok K (acj A).
Hypothesis cB : cjok K (acj B).
Hypothesis SI : acs A = acs C.
Hypothesis SK : ars A = acs B.
Hypothesis SJ : ars B = ars C.
Hypothesis HM : (0 < acs C)%nat.
Hypothesis HN : (0 < ars C)%nat.
Hypothesis HK : (0 < ars A)%nat.
Hypothesis RA : iscm A || isrm A = true.
Hypothesis RB : iscm B || isrm B = true.

Lemma simple_spec m : exists m2,
  (if iscm A then
     if iscm B then CCCMultMM add alpha A B C m else CRCMultMM add alpha A B C m
   else
     if iscm B then RCCMultMM add alpha A B C m
     else RCCMultMM add alpha A (mtmp 4 (acs B) (ars B)) C (mcopy 4 B m)) = Some m2 /\
  prod_post add alpha A B C m m2.
Proof.
  revert RA RB. unfold iscm, isrm.
  destruct (Z.eqb_spec (asi A) 1) as [A1|A1]; cbn [orb].
  - intros _. destruct (Z.eqb_spec (asi B) 1) as [B1|B1]; cbn [orb].
    + intros _. apply CCC_spec; auto; lia.
    + intro H. apply Z.eqb_eq in H. apply CRC_spec; auto; lia.
  - intro H. apply Z.eqb_eq in H. destruct (Z.eqb_spec (asi B) 1) as [B1|B1].
    + intros _. apply RCC_spec; auto; lia.
    + intros _. destruct (mcopy_spec 4 B m) as [P Q]; [lia|].
      destruct (RCC_spec add alpha A (mtmp 4 (acs B) (ars B)) C (mcopy 4 B m)) as (m2 & R & P2 & Q2); auto;
        try (cbn [ab mtmp]; lia).
      exists m2. split; [exact R|]. split.
      * intros i j Hi Hj. rewrite P2 by auto. f_equal.
        { destruct add; [apply Q; cbn [fst mloc]; lia|reflexivity]. }
        f_equal. apply sum_ext. intros q Hq. rewrite P by lia. f_equal.
        unfold mget. rewrite Q by (cbn [fst mloc]; lia). reflexivity.
      * intros l Hl Hn. rewrite Q2 by auto. apply Q. lia.
Qed.

Hypothesis DA : mm_disj A C.
Hypothesis DB : mm_disj B C.

Lemma BlockMultMM_spec m : exists m2,
  BlockMultMM calls alloc add alpha A B C m = Some m2 /\ prod_post add alpha A B C m m2.
Proof.
  unfold BlockMultMM.
  pose proof (Hcalls alpha A B C m HC bC bA bB cC cA cB SI SK SJ DA DB) as H.
  destruct (run_calls alloc 0 (calls add alpha A B C) m) as [m' [|]]; [exists m'; auto|].
  destruct H as [F1 F2].
  assert (Fin : forall m2, prod_post add alpha A B C m' m2 -> prod_post add alpha A B C m m2).
  { intros m2 [P Q]. split.
    - intros i j Hi Hj. rewrite P by auto. f_equal.
      + destruct add; [apply F2; auto|reflexivity].
      + f_equal. apply mm_ext; intros q Hq; apply F1; auto; intro X.
        * apply (DA (mloc A i q)); [exists i, q; split; [lia|split; [lia|reflexivity]]|exact X].
        * apply (DB (mloc B q j)); [exists q, j; split; [lia|split; [lia|reflexivity]]|exact X].
    - intros l Hl Hn. rewrite Q by auto. apply F1; auto. }
  destruct (simple_spec m') as (m2 & R & P).
  destruct (iscm A) eqn:EA; [exists m2; auto|].
  destruct (iscm B) eqn:EB; [exists m2; auto|].
  destruct (16 <? ars B)%nat; [|exists m2; auto].
  assert (RA' : asj A = 1).
  { pose proof RA as H. rewrite ?EA in H. cbn [orb] in H. apply Z.eqb_eq. exact H. }
  destruct (slices_spec add alpha A B C m') as (m3 & R3 & P3); auto. exists m3. auto.
Qed.

Lemma NonBlas_spec m : exists m2,
  NonBlasMultMM calls alloc add alpha A B C m = Some m2 /\ prod_post add alpha A B C m m2.
Proof.
  unfold NonBlasMultMM. destruct (small _ _ _); [apply simple_spec|apply BlockMultMM_spec].
Qed.
End Args.
End Adds.

(** *** MultMM *)
(** A starts where C does, or shares nothing with it. *)
Definition alias_ok (A C : mat) : Prop := mptr A = mptr C \/ mm_disj A C.

(** C holds the product of the old values; the user's memory is otherwise as it was. *)
Definition multmm_post (add : bool) alpha A B C m m2 : Prop :=
  (forall i j, (i < acs C)%nat -> (j < ars C)%nat ->
     mget m2 C i j = kadd (if add then mget m C i j else k0) (kmul alpha (mm m A B i j))) /\
  (forall l, fst l = O -> ~ in_mat C l -> m2 l = m l).

Lemma MMS f (add : bool) alpha A B C m :
  MultMM_fuel calls alloc (S f) add alpha A B C m =
    (if (0 <? acs C)%nat && (0 <? ars C)%nat then
      if Nat.eqb (ars A) 0 || keqb alpha k0 then
        Some (if negb add then mzero C m else m)
      else if acj C then
        MultMM_fuel calls alloc f add (cj alpha) (mconj K A) (mconj K B) (mconj K C) m
      else if iscm C then
        if negb (sameMM A C) && (iscm A || isrm A) then
          if negb (sameMM B C) && (iscm B || isrm B) then
            NonBlasMultMM calls alloc add alpha A B C m
          else
            NonBlasMultMM calls alloc add k1 A (mtmp 2 (acs B) (ars B)) C (mscale 2 alpha B m)
        else
          MultMM_fuel calls alloc f add k1 (mtmp 1 (acs A) (ars A)) B C (mscale 1 alpha A m)
      else if isrm C then
        MultMM_fuel calls alloc f add alpha (tr B) (tr A) (tr C) m
      else
        let C2 := mtmp 3 (acs C) (ars C) in
        match MultMM_fuel calls alloc f false k1 A B C2 m with
        | None => None
        | Some m => Some (maxpy add alpha C2 C m)
        end
    else Some m).
Proof. reflexivity. Qed.

Lemma sameMM_false A C : sameMM A C = false -> alias_ok A C -> mm_disj A C.
Proof.
  unfold sameMM. destruct (leqb_spec (mptr A) (mptr C)); [discriminate|]. intros _ [E|D]; [contradiction|exact D].
Qed.
Lemma blk_mm_disj A C : ab A <> ab C -> mm_disj A C.
Proof. intros H l (i & j & _ & _ & ->) (i' & j' & _ & _ & E). apply (f_equal fst) in E. auto. Qed.
Lemma blk_sameMM A C : ab A <> ab C -> sameMM A C = false.
Proof.
  intro H. unfold sameMM. destruct (leqb_spec (mptr A) (mptr C)) as [E|]; [|reflexivity].
  apply (f_equal fst) in E. contradiction.
Qed.

Definition shapes A B C : Prop := acs A = acs C /\ ars A = acs B /\ ars B = ars C.

Lemma cjok_false : cjok K false.
Proof. discriminate. Qed.

(** Levels: C column major; C not conjugated; any C. *)
Section Levels.
Variable add : bool.
Hypothesis Hcalls : calls_ok add.
Hypothesis Hcalls0 : calls_ok false.

Lemma zero_case alpha A B C m :
  minj C -> Nat.eqb (ars A) 0 || keqb alpha k0 = true ->
  multmm_post add alpha A B C m (if negb add then mzero C m else m).
Proof.
  intros HC H.
  assert (Z : forall i j, kmul alpha (mm m A B i j) = k0).
  { intros i j. apply orb_prop in H. destruct H as [H|H].
    - apply Nat.eqb_eq in H. unfold mm. rewrite H. cbn [sum]. ring.
    - apply keqb_eq in H. rewrite H. ring. }
  destruct (mzero_spec C m HC) as [P Q].
  split.
  - intros i j Hi Hj. rewrite Z. destruct add; cbn [negb].
    + ring.
    + unfold mget. rewrite P by auto. rewrite cjif0. ring.
  - intros l Hl Hn. destruct add; cbn [negb]; [reflexivity|]. apply Q. exact Hn.
Qed.

Lemma post_nonconj alpha A B C m m2 : acj C = false ->
  (forall i j, (i < acs C)%nat -> (j < ars C)%nat ->
     m2 (mloc C i j) = kadd (if add then m (mloc C i j) else k0) (kmul alpha (mm m A B i j))) ->
  (forall l, fst l = O -> ~ in_mat C l -> m2 l = m l) -> multmm_post add alpha A B C m m2.
Proof. intros E P Q. split; [|exact Q]. unfold mget. rewrite E. exact P. Qed.

(** C column major, A usable as it is. *)
Lemma level1 f alpha A B C m : minj C -> shapes A B C ->
  (ab C = 0 \/ ab C = 3)%nat -> (ab A = 0 \/ ab A = 1)%nat -> ab B = O ->
  acj C = false -> cjok K (acj A) -> cjok K (acj B) -> iscm C = true ->
  mm_disj A C -> sameMM A C = false -> iscm A || isrm A = true -> alias_ok B C ->
  exists m2, MultMM_fuel calls alloc (S f) add alpha A B C m = Some m2 /\ multmm_post add alpha A B C m m2.
Proof.
  intros HC (SI & SK & SJ) bC bA bB cC cA cB CM DA NA RA DB. rewrite MMS.
  destruct (Nat.ltb_spec 0 (acs C)) as [HM|HM]; [destruct (Nat.ltb_spec 0 (ars C)) as [HN|HN]|]; cbn [andb].
  2,3: exists m; split; [reflexivity|]; split; [intros; lia|reflexivity].
  destruct (Nat.eqb (ars A) 0 || keqb alpha k0) eqn:EZ.
  { eexists. split; [reflexivity|]. apply zero_case; auto. }
  rewrite cC, CM, NA, RA. cbn [negb andb].
  apply orb_false_iff in EZ. destruct EZ as [EK EA0]. apply Nat.eqb_neq in EK.
  destruct (negb (sameMM B C) && (iscm B || isrm B)) eqn:EB.
  - apply andb_prop in EB. destruct EB as [EB RB]. apply negb_true_iff in EB.
    destruct (NonBlas_spec add Hcalls alpha A B C) with (m := m) as (m2 & R & P & Q); auto; try lia.
    { apply sameMM_false; auto. }
    exists m2. split; [exact R|]. apply post_nonconj; auto. intros l Hl Hn. apply Q; auto. lia.
  - destruct (mscale_spec 2 alpha B m) as [P1 Q1]; [lia|].
    destruct (NonBlas_spec add Hcalls k1 A (mtmp 2 (acs B) (ars B)) C) with (m := mscale 2 alpha B m)
      as (m2 & R & PP); auto; try (cbn [ab acs ars mtmp]; lia).
    { apply cjok_false. }
    { apply blk_mm_disj. cbn [ab mtmp]. lia. }
    destruct (prod_post_B2 add alpha A B (mtmp 2 (acs B) (ars B)) C m (mscale 2 alpha B m) m2) as [P Q]; auto;
      try (cbn [ab mtmp]; lia).
    exists m2. split; [exact R|]. apply post_nonconj; auto. intros l Hl Hn. apply Q; auto; cbn [ab mtmp]; lia.
Qed.

Lemma level2 f alpha A B C m : minj C -> shapes A B C ->
  (ab C = 0 \/ ab C = 3)%nat -> ab A = O -> ab B = O ->
  acj C = false -> cjok K (acj A) -> cjok K (acj B) -> iscm C = true ->
  alias_ok A C -> alias_ok B C ->
  exists m2, MultMM_fuel calls alloc (S (S f)) add alpha A B C m = Some m2 /\ multmm_post add alpha A B C m m2.
Proof.
  intros HC Sh bC bA bB cC cA cB CM DA DB.
  destruct (negb (sameMM A C) && (iscm A || isrm A)) eqn:EA.
  { apply andb_prop in EA. destruct EA as [EA RA]. apply negb_true_iff in EA.
    apply level1; auto. apply sameMM_false; auto. }
  rewrite MMS.
  destruct (Nat.ltb_spec 0 (acs C)) as [HM|HM]; [destruct (Nat.ltb_spec 0 (ars C)) as [HN|HN]|]; cbn [andb].
  2,3: exists m; split; [reflexivity|]; split; [intros; lia|reflexivity].
  destruct (Nat.eqb (ars A) 0 || keqb alpha k0) eqn:EZ.
  { eexists. split; [reflexivity|]. apply zero_case; auto. }
  rewrite cC, CM, EA.
  destruct Sh as (SI & SK & SJ).
  destruct (mscale_spec 1 alpha A m) as [P1 Q1]; [lia|].
  set (A2 := mtmp 1 (acs A) (ars A)) in *.
  destruct (level1 f k1 A2 B C (mscale 1 alpha A m)) as (m2 & R & P & Q); auto.
  { split; [exact SI|split; [exact SK|exact SJ]]. }
  { apply cjok_false. }
  { apply blk_mm_disj. cbn [ab A2 mtmp]. lia. }
  { apply blk_sameMM. cbn [ab A2 mtmp]. lia. }
  exists m2. split; [exact R|]. apply post_nonconj; auto.
  - intros i j Hi Hj. specialize (P i j Hi Hj). unfold mget in P. rewrite cC in P. cbn [cjif] in P. rewrite P.
    f_equal.
    + destruct add; [apply Q1; cbn [fst mloc]; lia|reflexivity].
    + rewrite (Rmul_1_l (kring K)). unfold mm. rewrite <- sum_scale. change (ars A2) with (ars A).
      apply sum_ext. intros q Hq. rewrite P1 by lia. unfold mget at 2. rewrite Q1 by (cbn [fst mloc]; lia).
      fold (mget m B q j). ring.
  - intros l Hl Hn. rewrite Q by auto. apply Q1. lia.
Qed.
End Levels.

Lemma mm_tr m A B i j : ars A = acs B -> mm m (tr B) (tr A) j i = mm m A B i j.
Proof.
  intro E. unfold mm. change (ars (tr B)) with (acs B). rewrite <- E. apply sum_ext. intros q _.
  rewrite !mget_tr. ring.
Qed.
Lemma mm_disj_tr A C : mm_disj A C -> mm_disj (tr A) (tr C).
Proof. intros H l H1 H2. apply (H l); apply in_mat_tr; assumption. Qed.
Lemma alias_ok_tr A C : alias_ok A C -> alias_ok (tr A) (tr C).
Proof. intros [E|D]; [left; exact E|right; apply mm_disj_tr; exact D]. Qed.

Section Levels2.
Variable add : bool.
Hypothesis Hcalls : calls_ok add.
Hypothesis Hcalls0 : calls_ok false.

Lemma level3 f alpha A B C m : minj C -> shapes A B C ->
  ab C = O -> ab A = O -> ab B = O ->
  acj C = false -> cjok K (acj A) -> cjok K (acj B) ->
  alias_ok A C -> alias_ok B C ->
  exists m2, MultMM_fuel calls alloc (S (S (S f))) add alpha A B C m = Some m2 /\ multmm_post add alpha A B C m m2.
Proof.
  intros HC Sh bC bA bB cC cA cB DA DB.
  destruct (iscm C) eqn:CM; [apply level2; auto|].
  rewrite MMS.
  destruct (Nat.ltb_spec 0 (acs C)) as [HM|HM]; [destruct (Nat.ltb_spec 0 (ars C)) as [HN|HN]|]; cbn [andb].
  2,3: exists m; split; [reflexivity|]; split; [intros; lia|reflexivity].
  destruct (Nat.eqb (ars A) 0 || keqb alpha k0) eqn:EZ.
  { eexists. split; [reflexivity|]. apply zero_case; auto. }
  rewrite cC, CM. destruct Sh as (SI & SK & SJ).
  destruct (isrm C) eqn:RM.
  - destruct (level2 add Hcalls f alpha (tr B) (tr A) (tr C) m) as (m2 & R & P & Q);
      auto using minj_tr, alias_ok_tr.
    { split; [exact SJ|split; [symmetry; exact SK|exact SI]]. }
    exists m2. split; [exact R|]. split.
    + intros i j Hi Hj. specialize (P j i Hj Hi). rewrite !mget_tr in P. rewrite P.
      rewrite (mm_tr m A B i j SK). reflexivity.
    + intros l Hl Hn. apply Q; [exact Hl|]. intro X. apply Hn. apply in_mat_tr. exact X.
  - cbv zeta. set (C2 := mtmp 3 (acs C) (ars C)).
    destruct (level2 false Hcalls0 f k1 A B C2 m) as (m1 & R & P & Q); auto.
    { apply mtmp_inj. }
    { split; [exact SI|split; [exact SK|exact SJ]]. }
    { right. apply blk_mm_disj. cbn [ab C2 mtmp]. lia. }
    { right. apply blk_mm_disj. cbn [ab C2 mtmp]. lia. }
    rewrite R. eexists. split; [reflexivity|].
    assert (E : forall l, fst l = O -> m1 l = m l).
    { intros l Hl. apply Q; [exact Hl|]. apply blk_not_in. cbn [ab C2 mtmp]. lia. }
    destruct (maxpy_spec add alpha C2 C m1 HC) as [P2 Q2]; [cbn [ab C2 mtmp]; lia|].
    split.
    + intros i j Hi Hj. unfold mget at 1. rewrite cC. cbn [cjif]. rewrite P2 by auto. f_equal.
      * destruct add; [|reflexivity]. unfold mget. rewrite cC. apply E. exact bC.
      * f_equal. rewrite P by auto. ring.
    + intros l Hl Hn. rewrite Q2 by auto. apply E. exact Hl.
Qed.

Lemma mm_conj m A B i j : cjok K (acj A) -> cjok K (acj B) ->
  mm m (mconj K A) (mconj K B) i j = cj (mm m A B i j).
Proof.
  intros cA cB. unfold mm. change (ars (mconj K A)) with (ars A). rewrite cj_sum. apply sum_ext.
  intros q _. rewrite !mget_conj by assumption. symmetry. apply cj_mul.
Qed.

Lemma cjok_conj b : cjok K (if kcplx K then negb b else false).
Proof. intro H. destruct (kcplx K) eqn:E; [reflexivity|discriminate]. Qed.

Theorem MultMM_spec alpha A B C m : minj C -> shapes A B C ->
  ab C = O -> ab A = O -> ab B = O ->
  cjok K (acj C) -> cjok K (acj A) -> cjok K (acj B) ->
  alias_ok A C -> alias_ok B C ->
  exists m2, MultMM calls alloc add alpha A B C m = Some m2 /\ multmm_post add alpha A B C m m2.
Proof.
  intros HC Sh bC bA bB cC cA cB DA DB. unfold MultMM.
  destruct (acj C) eqn:EC; [|apply level3; auto].
  rewrite MMS. rewrite EC.
  destruct (Nat.ltb_spec 0 (acs C)) as [HM|HM]; [destruct (Nat.ltb_spec 0 (ars C)) as [HN|HN]|]; cbn [andb].
  2,3: exists m; split; [reflexivity|]; split; [intros; lia|reflexivity].
  destruct (Nat.eqb (ars A) 0 || keqb alpha k0) eqn:EZ.
  { eexists. split; [reflexivity|]. apply zero_case; auto. }
  destruct (level3 0 (cj alpha) (mconj K A) (mconj K B) (mconj K C) m) as (m2 & R & P & Q); auto.
  { cbn [acj mconj]. rewrite EC, (cC eq_refl). reflexivity. }
  { apply cjok_conj. }
  { apply cjok_conj. }
  exists m2. split; [exact R|]. split.
  - intros i j Hi Hj. specialize (P i j Hi Hj).
    rewrite <- EC in cC. rewrite mget_conj in P by exact cC. rewrite mm_conj in P by assumption.
    apply (f_equal cj) in P. rewrite cj_cj in P. rewrite P, cj_add, cj_mul, !cj_cj. f_equal.
    destruct add; [|apply cj_0]. rewrite mget_conj by exact cC. apply cj_cj.
  - exact Q.
Qed.
End Levels2.
End Dispatch.

(** *** Real element types *)
Lemma calls_real_ok KB rnd alloc add : (0 < KB)%nat -> (forall k, (k <= rnd k)%nat) -> rnd KB = KB ->
  kcplx K = false -> calls_ok (calls_real KB rnd) alloc add.
Proof.
  intros K0 R1 R2 Re alpha A B C m HC bC bA bB cC cA cB SI SK SJ DA DB.
  cbn [run_calls calls_real].
  destruct (alloc O); [|split; auto].
  destruct (DoBlock_spec KB rnd (fun a => a) (fun b => b) (updx add alpha) A B C m) as [P Q]; auto; try lia.
  split.
  - intros i j Hi Hj. rewrite P by auto. unfold updx, bprod.
    replace (sum (ars A) (fun q => kmul (m (mloc A i q)) (m (mloc B q j)))) with (mm m A B i j).
    + destruct add; ring.
    + apply sum_ext. intros q _. unfold mget.
      assert (F : forall b (x : K), cjok K b -> cjif b x = x).
      { intros b x H. destruct b; [|reflexivity]. specialize (H eq_refl). congruence. }
      rewrite !F by assumption. reflexivity.
  - intros l Hl Hn. apply Q; [lia|exact Hn].
Qed.
End Main.
