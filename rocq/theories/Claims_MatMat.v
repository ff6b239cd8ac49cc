(** Matrix times matrix (C29).  The elements of a view are read with [mget]
    (MatMem.v); [minj], [in_mat] are in MatVecProofs.v, [mm_disj] in
    MatMatProofs.v, [shapes], [alias_ok] and [safe_alloc] in MatMatMain.v.  The
    user's memory is block 0.  [KB] is the block size of the blocked algorithm
    and [rnd] the rounding of a partial block; [alloc q] says whether the
    temporaries of the q-th blocked product can be allocated. *)
From Coq Require Import ZArith Lia Bool List Arith.
From Verif Require Import Base Scal ScalC MatMem MatVec MatVecProofs.
From Verif Require Import MatMat MatMatProofs MatMatBlock MatMatMain MatMatCplx.
Open Scope Z_scope.

(** Element (i,j) of the product of A and B in m. *)
Definition product {K : scal} (m : hmem K) (A B : mat) (i j : nat) : K :=
  sum (ars A) (fun k => kmul (mget m A i k) (mget m B k j)).

(** ** C29, real element types *)
Theorem C29_real (K : scal) (KB : nat) (rnd : nat -> nat) (alloc : nat -> bool)
    (add : bool) (alpha : K) (A B C : mat) (m : hmem K) :
  kcplx K = false ->
  (0 < KB)%nat -> (forall k, (k <= rnd k)%nat) -> rnd KB = KB ->
  minj C -> shapes A B C -> ab C = 0%nat -> ab A = 0%nat -> ab B = 0%nat ->
  cjok K (acj C) -> cjok K (acj A) -> cjok K (acj B) ->
  alias_ok A C -> alias_ok B C ->
  exists m2, MultMM (calls_real KB rnd) alloc add alpha A B C m = Some m2 /\
    (forall i j, (i < acs C)%nat -> (j < ars C)%nat ->
       mget m2 C i j = kadd (if add then mget m C i j else k0) (kmul alpha (product m A B i j))) /\
    (forall l, fst l = 0%nat -> ~ in_mat C l -> m2 l = m l).
Proof.
  intros Re K0 R1 R2 HC S bC bA bB cC cA cB DA DB.
  exact (MultMM_spec (calls_real KB rnd) alloc add (calls_real_ok KB rnd alloc add K0 R1 R2 Re)
    (calls_real_ok KB rnd alloc false K0 R1 R2 Re) alpha A B C m HC S bC bA bB cC cA cB DA DB).
Qed.
Print Assumptions C29_real.

(** ** C29, complex element types *)

(** The blocked product of complex matrices consists of four real ones.  Either
    C is overwritten, or the allocations fail at the first one or never: see
    [C29_bad_alloc_refuted] for the remaining case. *)
Theorem C29_complex (R : scal) (KB : nat) (rnd : nat -> nat) (alloc : nat -> bool)
    (add : bool) (alpha : scalC R) (A B C : mat) (m : hmem (scalC R)) :
  (0 < KB)%nat -> (forall k, (k <= rnd k)%nat) -> rnd KB = KB ->
  add = false \/ alloc 0%nat = false \/ (forall q, (q < 4)%nat -> alloc q = true) ->
  minj C -> shapes A B C -> ab C = 0%nat -> ab A = 0%nat -> ab B = 0%nat ->
  alias_ok A C -> alias_ok B C ->
  exists m2, MultMM (calls_cplx R KB rnd) alloc add alpha A B C m = Some m2 /\
    (forall i j, (i < acs C)%nat -> (j < ars C)%nat ->
       mget m2 C i j = kadd (if add then mget m C i j else k0) (kmul alpha (product m A B i j))) /\
    (forall l, fst l = 0%nat -> ~ in_mat C l -> m2 l = m l).
Proof.
  intros K0 R1 R2 Sa HC S bC bA bB DA DB.
  assert (Sb : safe_alloc (scalC R) add alloc) by (unfold safe_alloc; tauto).
  assert (Sc : safe_alloc (scalC R) false alloc) by (unfold safe_alloc; tauto).
  exact (MultMM_spec (K := scalC R) (calls_cplx R KB rnd) alloc add (calls_cplx_ok R KB rnd alloc add K0 R1 R2 Sb)
    (calls_cplx_ok R KB rnd alloc false K0 R1 R2 Sc) alpha A B C m HC S bC bA bB
    (fun _ => eq_refl) (fun _ => eq_refl) (fun _ => eq_refl) DA DB).
Qed.
Print Assumptions C29_complex.

(** ** In place: A = alpha*A*B, B = alpha*A*B, A = alpha*A*A *)
Corollary C29_in_place (R : scal) KB rnd alloc (alpha : scalC R) (A B : mat) (m : hmem (scalC R)) :
  (0 < KB)%nat -> (forall k, (k <= rnd k)%nat) -> rnd KB = KB ->
  minj A -> minj B -> mm_disj A B -> ab A = 0%nat -> ab B = 0%nat ->
  (ars A = acs B -> acs B = ars B ->
   exists m2, MultMM (calls_cplx R KB rnd) alloc false alpha A B A m = Some m2 /\
     forall i j, (i < acs A)%nat -> (j < ars A)%nat -> mget m2 A i j = kmul alpha (product m A B i j)) /\
  (acs A = ars A -> ars A = acs B ->
   exists m2, MultMM (calls_cplx R KB rnd) alloc false alpha A B B m = Some m2 /\
     forall i j, (i < acs B)%nat -> (j < ars B)%nat -> mget m2 B i j = kmul alpha (product m A B i j)) /\
  (acs A = ars A ->
   exists m2, MultMM (calls_cplx R KB rnd) alloc false alpha A A A m = Some m2 /\
     forall i j, (i < acs A)%nat -> (j < ars A)%nat -> mget m2 A i j = kmul alpha (product m A A i j)).
Proof.
  intros K0 R1 R2 HA HB D bA bB.
  assert (Z : forall x : scalC R, kadd k0 x = x).
  { intro x. apply (Ring_theory.Radd_0_l (kring (scalC R))). }
  assert (D' : mm_disj B A) by (intros l H1 H2; exact (D l H2 H1)).
  refine (conj _ (conj _ _)).
  - intros E1 E2.
    destruct (C29_complex R KB rnd alloc false alpha A B A m) as (m2 & H & P & _);
      auto; unfold shapes, alias_ok; auto; try (repeat split; congruence).
    exists m2. split; [exact H|]. intros i j Hi Hj. rewrite P by auto. apply Z.
  - intros E1 E2.
    destruct (C29_complex R KB rnd alloc false alpha A B B m) as (m2 & H & P & _);
      auto; unfold shapes, alias_ok; auto; try (repeat split; congruence).
    exists m2. split; [exact H|]. intros i j Hi Hj. rewrite P by auto. apply Z.
  - intros E1.
    destruct (C29_complex R KB rnd alloc false alpha A A A m) as (m2 & H & P & _);
      auto; unfold shapes, alias_ok; auto; try (repeat split; congruence).
    exists m2. split; [exact H|]. intros i j Hi Hj. rewrite P by auto. apply Z.
Qed.
Print Assumptions C29_in_place.

(** ** Cases that meet the hypotheses *)
Lemma minj_cm b p n k s c : Z.of_nat n <= s -> minj (mkMat b p n k 1 s c).
Proof.
  intros Hs. unfold minj, mloc. cbn [ab ap acs ars asi asj].
  intros i j i' j' Hi Hj Hi' Hj' E. apply (f_equal snd) in E. cbn [snd] in E.
  assert (Z.of_nat j = Z.of_nat j') by nia. nia.
Qed.

(** A 3x3 row-major conjugated complex matrix overwritten by its product with a
    matrix whose rows and columns are 2 and 7 apart. *)
Example C29_example :
  let A := mkMat 0 0 3 3 3 1 true in
  let B := mkMat 0 20 3 3 2 7 false in
  minj A /\ shapes A B A /\ alias_ok A A /\ alias_ok B A /\
  let m := (fun l => (snd l, 1)) : hmem (scalC ZK) in
  exists m2, MultMM (calls_cplx ZK 16 (fun k => k)) (fun _ => true) false ((1, 2) : scalC ZK) A B A m = Some m2 /\
    product m A B 1 2 <> k0 /\ mget m2 A 1 2 = kmul ((1, 2) : scalC ZK) (product m A B 1 2).
Proof.
  cbn zeta. split; [|split; [|split; [|split]]].
  - unfold minj, mloc. cbn [ab ap acs ars asi asj]. intros i j i' j' Hi Hj Hi' Hj' E.
    apply (f_equal snd) in E. cbn [snd] in E. lia.
  - repeat split.
  - left. reflexivity.
  - right. intros l (i & j & Hi & Hj & E) (i' & j' & Hi' & Hj' & E').
    rewrite E in E'. apply (f_equal snd) in E'. unfold mloc in E'. cbn [snd ab ap acs ars asi asj] in *. lia.
  - eexists. split; [vm_compute; reflexivity|]. split; vm_compute; congruence.
Qed.

(** The blocked algorithm on 16x17 times 17x16, in two blocks of k. *)
Example C29_example_block :
  let A := mkMat 0 0 16 17 1 16 false in
  let B := mkMat 0 500 17 16 16 1 false in
  let C := mkMat 0 1000 16 16 1 16 false in
  minj C /\ small 16 16 17 = false /\
  let m := (fun l => snd l mod 7) : hmem ZK in
  match MultMM (calls_real 16 (fun k => k)) (fun _ => true) true (3 : ZK) A B C m with
  | Some m2 => mget m2 C 5 7 = mget m C 5 7 + 3 * product m A B 5 7 /\ product m A B 5 7 <> 0
  | None => False
  end.
Proof.
  cbn zeta. split; [apply minj_cm; lia|]. split; [reflexivity|].
  vm_compute. split; congruence.
Qed.

(** ** Finding: C += A*B for complex matrices when memory runs out on the way.
    The blocked algorithm catches bad_alloc and starts again with the simple one,
    although some of its four real products may already be in C. *)
Theorem C29_bad_alloc_refuted :
  ~ (forall (alloc : nat -> bool) (alpha : scalC ZK) (A B C : mat) (m : hmem (scalC ZK)),
       minj C -> shapes A B C -> ab C = 0%nat -> ab A = 0%nat -> ab B = 0%nat ->
       mm_disj A C -> mm_disj B C ->
       exists m2, MultMM (calls_cplx ZK 16 (fun k => k)) alloc true alpha A B C m = Some m2 /\
         forall i j, (i < acs C)%nat -> (j < ars C)%nat ->
           mget m2 C i j = kadd (mget m C i j) (kmul alpha (product m A B i j))).
Proof.
  intro H.
  destruct (H (fun q => Nat.eqb q 0) (1, 0) (mkMat 0 0 16 16 1 16 false) (mkMat 0 0 16 16 1 16 false)
              (mkMat 0 1000 16 16 1 16 false) (fun _ => (1, 0))) as (m2 & E & P).
  - apply minj_cm. lia.
  - repeat split.
  - reflexivity.
  - reflexivity.
  - reflexivity.
  - intros l (i & j & Hi & Hj & E) (i' & j' & Hi' & Hj' & E').
    rewrite E in E'. apply (f_equal snd) in E'. unfold mloc in E'. cbn [snd ab ap acs ars asi asj] in *. lia.
  - intros l (i & j & Hi & Hj & E) (i' & j' & Hi' & Hj' & E').
    rewrite E in E'. apply (f_equal snd) in E'. unfold mloc in E'. cbn [snd ab ap acs ars asi asj] in *. lia.
  - specialize (P 0%nat 0%nat ltac:(cbn; lia) ltac:(cbn; lia)).
    assert (G : option_map (fun m2 => mget m2 (mkMat 0 1000 16 16 1 16 false) 0 0)
      (MultMM (calls_cplx ZK 16 (fun k => k)) (fun q => Nat.eqb q 0) true ((1, 0) : scalC ZK)
        (mkMat 0 0 16 16 1 16 false) (mkMat 0 0 16 16 1 16 false)
        (mkMat 0 1000 16 16 1 16 false) (fun _ => (1, 0))) = Some (33, 0)) by (vm_compute; reflexivity).
    rewrite E in G. cbn [option_map] in G. rewrite P in G. vm_compute in G. discriminate.
Qed.
Print Assumptions C29_bad_alloc_refuted.
