(** Proofs about MatMat.v: the complex instance of the blocked algorithm. *)
From Coq Require Import ZArith Lia Bool List Ring Arith.
From Verif Require Import Base Scal ScalC MatMem MatVec MatVecProofs MatMat MatMatProofs MatMatBlock MatMatMain.
Import ListNotations.
Open Scope Z_scope.

Section Cplx.
Variable R : scal.
Add Ring Rring5 : (kring R).
Notation T := (scalC R).
Implicit Types (m : hmem T) (A B C : mat).

Lemma pair_of (x : T) (a b : R) : fst x = a -> snd x = b -> x = (a, b).
Proof. destruct x. cbn [fst snd]. intros -> ->. reflexivity. Qed.
Lemma sum_fst n (f : nat -> T) : fst (sum n f) = sum n (fun q => fst (f q) : R).
Proof. induction n as [|n IH]; [reflexivity|]. cbn [sum]. rewrite <- IH. reflexivity. Qed.
Lemma sum_snd n (f : nat -> T) : snd (sum n f) = sum n (fun q => snd (f q) : R).
Proof. induction n as [|n IH]; [reflexivity|]. cbn [sum]. rewrite <- IH. reflexivity. Qed.
Lemma sum_add n (f g : nat -> R) : sum n (fun q => kadd (f q) (g q)) = kadd (sum n f) (sum n g).
Proof. induction n as [|n IH]; cbn [sum]; [ring|]. rewrite IH. ring. Qed.
Lemma sum_opp n (f : nat -> R) : sum n (fun q => kopp (f q)) = kopp (sum n f).
Proof. induction n as [|n IH]; cbn [sum]; [ring|]. rewrite IH. ring. Qed.

(** Sums of products of two real parts. *)
Definition rsum m A B (p q : T -> R) (i j : nat) : R :=
  sum (ars A) (fun k => kmul (p (m (mloc A i k))) (q (m (mloc B k j)))).

Definition sg (b : bool) (x : R) : R := if b then kopp x else x.

Lemma mm_parts m A B i j :
  mm m A B i j =
  (ksub (rsum m A B fst fst i j) (sg (xorb (acj A) (acj B)) (rsum m A B snd snd i j)),
   kadd (sg (acj B) (rsum m A B fst snd i j)) (sg (acj A) (rsum m A B snd fst i j))).
Proof.
  unfold mm. apply pair_of; rewrite ?sum_fst, ?sum_snd; unfold rsum.
  - rewrite (sum_ext _ _ (fun q => kadd (kmul (fst (m (mloc A i q))) (fst (m (mloc B q j))))
        (kopp (sg (xorb (acj A) (acj B)) (kmul (snd (m (mloc A i q))) (snd (m (mloc B q j)))))))).
    + rewrite sum_add, sum_opp. unfold sg. destruct (xorb (acj A) (acj B)); rewrite ?sum_opp; ring.
    + intros q _. unfold mget, cjif, sg. destruct (acj A), (acj B); cbn [fst snd cj kmul scalC xorb]; ring.
  - rewrite (sum_ext _ _ (fun q => kadd (sg (acj B) (kmul (fst (m (mloc A i q))) (snd (m (mloc B q j)))))
        (sg (acj A) (kmul (snd (m (mloc A i q))) (fst (m (mloc B q j))))))).
    + rewrite sum_add. unfold sg. destruct (acj A), (acj B); rewrite ?sum_opp; ring.
    + intros q _. unfold mget, cjif, sg. destruct (acj A), (acj B); cbn [fst snd cj kmul scalC]; ring.
Qed.

Lemma bprod_parts (p q : T -> R) m A B i j :
  bprod (fun a => (p a, k0) : T) (fun b => (q b, k0) : T) A B m i j (ars A) = (rsum m A B p q i j, k0).
Proof.
  unfold bprod. apply pair_of; rewrite ?sum_fst, ?sum_snd; unfold rsum.
  - apply sum_ext. intros k _. cbn [fst snd kmul scalC]. ring.
  - apply sum_0. intros k _. cbn [fst snd kmul scalC]. ring.
Qed.

Section Calls.
Variables (KB : nat) (rnd : nat -> nat) (A B C : mat) (m : hmem T).
Hypothesis KB0 : (0 < KB)%nat.
Hypothesis rnd_ge : forall k, (k <= rnd k)%nat.
Hypothesis rnd_KB : rnd KB = KB.
Hypothesis HC : minj C.
Hypothesis bC : (ab C < 4)%nat.
Hypothesis bA : (ab A < 4)%nat.
Hypothesis bB : (ab B < 4)%nat.
Hypothesis SI : acs A = acs C.
Hypothesis SK : ars A = acs B.
Hypothesis SJ : ars B = ars C.
Hypothesis DA : mm_disj A C.
Hypothesis DB : mm_disj B C.

Definition agree (m' : hmem T) : Prop := forall l, (fst l < 4)%nat -> ~ in_mat C l -> m' l = m l.

Lemma blk_step (p q : T -> R) upd m' : agree m' ->
  let m2 := DoBlock KB rnd (fun a => (p a, k0) : T) (fun b => (q b, k0) : T) upd A B C m' in
  agree m2 /\
  (forall i j, (i < acs C)%nat -> (j < ars C)%nat ->
     m2 (mloc C i j) = upd (m' (mloc C i j)) (rsum m A B p q i j, k0)).
Proof.
  intro Ag. cbv zeta.
  destruct (DoBlock_spec KB rnd (fun a => (p a, k0) : T) (fun b => (q b, k0) : T) upd A B C m') as [P Q]; auto; try lia.
  split.
  - intros l Hl Hn. rewrite Q; [apply Ag; auto|lia|exact Hn].
  - intros i j Hi Hj. rewrite P by auto. f_equal. rewrite bprod_parts. f_equal.
    unfold rsum. apply sum_ext. intros k Hk. rewrite (Ag (mloc A i k)), (Ag (mloc B k j)); [reflexivity| | | |];
      try (cbn [fst mloc]; lia); intro X.
    + apply (DB (mloc B k j)); [exists k, j; split; [lia|split; [lia|reflexivity]]|exact X].
    + apply (DA (mloc A i k)); [exists i, k; split; [lia|split; [lia|reflexivity]]|exact X].
Qed.
End Calls.

Lemma calls_cplx_ok KB rnd alloc (add : bool) :
  (0 < KB)%nat -> (forall k, (k <= rnd k)%nat) -> rnd KB = KB ->
  safe_alloc T add alloc -> calls_ok (K := T) (calls_cplx R KB rnd) alloc add.
Proof.
  intros K0 R1 R2 Sa x A B C m HC bC bA bB cC cA cB SI SK SJ DA DB.
  assert (St := blk_step KB rnd A B C m K0 R1 R2 HC bC bA bB SI SK SJ DA DB).
  assert (A0 : agree C m m) by (intros l _ _; reflexivity).
  assert (Bad : alloc O = true -> forall q, (0 < q < 4)%nat -> alloc q = false -> add = true -> False).
  { intros E0 q Hq E Ea. destruct Sa as [H|[H|[H|H]]]; [congruence|discriminate|congruence|].
    rewrite H in E by lia. discriminate. }
  unfold calls_cplx. cbv zeta.
  destruct (kisreal x) eqn:Ex.
  - change (rpart R) with (fun a : T => (fst a, k0) : T). change (ipart R) with (fun a : T => (snd a, k0) : T).
    cbn [run_calls].
    destruct (alloc O) eqn:E0; [|split; [intros l _ _; reflexivity|intros _ l _; reflexivity]].
    destruct (St fst fst (updre R add (fst x)) m A0) as [A1 P1].
    set (m1 := DoBlock _ _ _ _ _ A B C m) in *. clearbody m1.
    destruct (alloc 1%nat) eqn:E1; [|split; [exact A1|intro Ea; destruct (Bad eq_refl 1%nat); auto; lia]].
    destruct (St snd snd (updre R true (if Bool.eqb (acj A) (acj B) then kopp (fst x) else fst x)) m1 A1) as [A2 P2].
    set (m2 := DoBlock _ _ _ _ _ A B C m1) in *. clearbody m2.
    destruct (alloc 2%nat) eqn:E2; [|split; [exact A2|intro Ea; destruct (Bad eq_refl 2%nat); auto; lia]].
    destruct (St fst snd (updim R add (if acj B then kopp (fst x) else fst x)) m2 A2) as [A3 P3].
    set (m3 := DoBlock _ _ _ _ _ A B C m2) in *. clearbody m3.
    destruct (alloc 3%nat) eqn:E3; [|split; [exact A3|intro Ea; destruct (Bad eq_refl 3%nat); auto; lia]].
    destruct (St snd fst (updim R true (if acj A then kopp (fst x) else fst x)) m3 A3) as [A4 P4].
    set (m4 := DoBlock _ _ _ _ _ A B C m3) in *. clearbody m4.
    split; [|exact A4].
    intros i j Hi Hj. rewrite P4, P3, P2, P1 by auto. rewrite mm_parts.
    destruct x as [xr xi]. apply keqb_eq in Ex. cbn [snd] in Ex. subst xi.
    unfold updre, updim, sg.
    destruct (m (mloc C i j)) as [cr ci].
    destruct add, (acj A), (acj B); cbn [fst snd kadd kmul k0 scalC xorb Bool.eqb]; f_equal; ring.
  - change (rpart R) with (fun a : T => (fst a, k0) : T). change (ipart R) with (fun a : T => (snd a, k0) : T).
    cbn [run_calls].
    destruct (alloc O) eqn:E0; [|split; [intros l _ _; reflexivity|intros _ l _; reflexivity]].
    set (ix := kmul ((k0, k1) : T) x).
    destruct (St fst fst (updx add x) m A0) as [A1 P1].
    set (m1 := DoBlock _ _ _ _ _ A B C m) in *. clearbody m1.
    destruct (alloc 1%nat) eqn:E1; [|split; [exact A1|intro Ea; destruct (Bad eq_refl 1%nat); auto; lia]].
    destruct (St snd snd (updx true (if Bool.eqb (acj A) (acj B) then kopp x else x)) m1 A1) as [A2 P2].
    set (m2 := DoBlock _ _ _ _ _ A B C m1) in *. clearbody m2.
    destruct (alloc 2%nat) eqn:E2; [|split; [exact A2|intro Ea; destruct (Bad eq_refl 2%nat); auto; lia]].
    destruct (St fst snd (updx true (if acj B then kopp ix else ix)) m2 A2) as [A3 P3].
    set (m3 := DoBlock _ _ _ _ _ A B C m2) in *. clearbody m3.
    destruct (alloc 3%nat) eqn:E3; [|split; [exact A3|intro Ea; destruct (Bad eq_refl 3%nat); auto; lia]].
    destruct (St snd fst (updx true (if acj A then kopp ix else ix)) m3 A3) as [A4 P4].
    set (m4 := DoBlock _ _ _ _ _ A B C m3) in *. clearbody m4.
    split; [|exact A4].
    intros i j Hi Hj. rewrite P4, P3, P2, P1 by auto. rewrite mm_parts.
    unfold ix, updx, sg. destruct x as [xr xi].
    destruct (m (mloc C i j)) as [cr ci].
    destruct add, (acj A), (acj B); cbn [fst snd kadd kmul kopp k0 k1 scalC xorb Bool.eqb]; f_equal; ring.
Qed.
End Cplx.
