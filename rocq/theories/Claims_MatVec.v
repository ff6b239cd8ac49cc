(** Rank-1 update (C35) and matrix times vector (C43).  The elements of a view
    are read with [vget] and [mget] (MatMem.v); [minj], [vinj], [vm_disj],
    [vv_disj], [in_mat], [in_vec] are in MatVecProofs.v.  Block 0 is the user's
    memory. *)
From Coq Require Import ZArith Lia Bool List Arith.
From Verif Require Import Base Scal MatMem MatVec MatVecProofs.
Open Scope Z_scope.

Local Ltac locs := unfold minj, vinj, vm_disj, vv_disj, mloc, vloc in *; cbn [ab ap acs ars asi asj vb vp vs vst] in *;
  intros; try (let E := fresh in intro E); repeat match goal with E : (_, _) = (_, _) |- _ => apply (f_equal snd) in E; cbn [snd] in E end; lia.

(** ** C35: A += alpha * x^y and A = alpha * x^y *)

(** x and y may overlap each other, but not A. *)
Theorem C35_rank1 (K : scal) (add : bool) (alpha : K) (x y : vec) (A : mat) (m : hmem K) :
  minj A -> vm_disj x A -> vm_disj y A ->
  ab A = 0%nat -> vb x = 0%nat -> vb y = 0%nat -> vs x = acs A -> vs y = ars A ->
  cjok K (vcj x) -> cjok K (vcj y) -> cjok K (acj A) ->
  exists m2, Rank1Update add alpha x y A m = Some m2 /\
    (forall i j, (i < acs A)%nat -> (j < ars A)%nat ->
       mget m2 A i j = kadd (if add then mget m A i j else k0) (kmul alpha (kmul (vget m x i) (vget m y j)))) /\
    (forall l, fst l = 0%nat -> ~ in_mat A l -> m2 l = m l).
Proof. exact (Rank1Update_spec add alpha x y A m). Qed.
Print Assumptions C35_rank1.

(** A conjugated complex 2x2 row-major matrix and two vectors, one with a
    negative step. *)
Example C35_rank1_example :
  let A := mkMat 0 10 2 2 2 1 true in
  let x := mkVec 0 0 2 1 false in
  let y := mkVec 0 5 2 (-2) true in
  minj A /\ vm_disj x A /\ vm_disj y A /\ cjok ZC (acj A) /\
  exists m2, Rank1Update (K:=ZC) true ((1, 2) : ZC) x y A (fun l => (snd l, 1)) = Some m2 /\
    m2 (0%nat, 10) <> (10, 1).
Proof.
  assert (In : forall i, (i < 2)%nat -> i = 0%nat \/ i = 1%nat) by lia.
  cbn zeta. split; [|split; [|split; [|split]]].
  - locs.
  - locs.
  - locs.
  - intros _. reflexivity.
  - eexists. split; [vm_compute; reflexivity|]. vm_compute. congruence.
Qed.

(** Finding: the manual promises that an alias is recognised when the first
    elements coincide, and the BLAS branch of Rank1Update tests it, but the
    native branch does not: A += A.col(0) ^ y uses the already updated column. *)
Theorem C35_rank1_alias_refuted :
  ~ (forall (x y : vec) (A : mat) (m : hmem ZK),
       minj A -> (x = mkVec (ab A) (ap A) (acs A) (asi A) false) -> vm_disj y A ->
       ab A = 0%nat -> vb y = 0%nat -> vs y = ars A -> acj A = false -> vcj y = false ->
       exists m2, Rank1Update true (1 : ZK) x y A m = Some m2 /\
         forall i j, (i < acs A)%nat -> (j < ars A)%nat ->
           mget m2 A i j = kadd (mget m A i j) (kmul (vget m x i) (vget m y j))).
Proof.
  intro H.
  destruct (H (mkVec 0 0 2 1 false) (mkVec 0 10 2 1 false) (mkMat 0 0 2 2 1 2 false) (fun _ => 1))
    as (m2 & E & P); auto.
  - locs.
  - locs.
  - specialize (P 0%nat 1%nat ltac:(cbn; lia) ltac:(cbn; lia)). vm_compute in E. injection E as <-.
    vm_compute in P. discriminate.
Qed.
Print Assumptions C35_rank1_alias_refuted.

(** ** C43: y = alpha*A*x, y += alpha*A*x *)

(** No overlap of y with x, or both start at the same element, or x is not
    contiguous; the same for y and A, where an A that y starts with must be row
    major or have its columns one after the other. *)
Theorem C43_mult_mv (K : scal) (add : bool) (alpha : K) (A : mat) (x y : vec) (m : hmem K) :
  vinj y -> cjok K (vcj x) -> cjok K (vcj y) -> cjok K (acj A) ->
  ab A = 0%nat -> vb x = 0%nat -> vb y = 0%nat -> vs x = ars A -> vs y = acs A ->
  (vst x <> 1 \/ vp x = vp y \/ vv_disj x y) ->
  (vst y <> 1 \/ vm_disj y A \/
   (vp y = ap A /\ vst y = 1 /\ 0 < asi A /\ 0 < asj A /\ (asj A = 1 \/ Z.of_nat (acs A) * asi A <= asj A))) ->
  let m2 := MultMV add alpha A x y m in
  (forall i, (i < vs y)%nat ->
     vget m2 y i = kadd (if add then vget m y i else k0)
                        (kmul alpha (sum (ars A) (fun j => kmul (mget m A i j) (vget m x j))))) /\
  (forall l, fst l = 0%nat -> ~ in_vec y l -> m2 l = m l).
Proof.
  intros H1 H2 H3 H4 H5 H6 H7 H8 H9 H10 H11. apply MultMV_spec; auto.
  destruct H11 as [H|[H|H]]; auto. right. right. split; [congruence|]. exact H.
Qed.
Print Assumptions C43_mult_mv.

(** The matrices of the next three theorems: rows or columns follow one another
    in memory, as in every Matrix and every subMatrix with positive steps. *)
Definition nested (A : mat) : Prop :=
  0 < asi A /\ 0 < asj A /\
  (Z.of_nat (acs A) * asi A <= asj A \/ Z.of_nat (ars A) * asj A <= asi A).

(** v = A*v for a square A that shares nothing with v. *)
Theorem C43_in_place (K : scal) (add : bool) (alpha : K) (A : mat) (v : vec) (m : hmem K) :
  vinj v -> cjok K (vcj v) -> cjok K (acj A) -> ab A = 0%nat -> vb v = 0%nat ->
  vs v = ars A -> vs v = acs A -> vm_disj v A ->
  forall i, (i < vs v)%nat ->
    vget (MultMV add alpha A v v m) v i =
      kadd (if add then vget m v i else k0)
           (kmul alpha (sum (ars A) (fun j => kmul (mget m A i j) (vget m v j)))).
Proof.
  intros H1 H2 H3 H4 H5 H6 H7 H8. apply (C43_mult_mv K add alpha A v v m); auto.
Qed.
Print Assumptions C43_in_place.

(** A.col(0) = A*x and A.row(0) = A*x. *)
Theorem C43_into_first_column (K : scal) (add : bool) (alpha : K) (A : mat) (x : vec) (m : hmem K) :
  nested A -> (0 < ars A)%nat -> cjok K (vcj x) -> cjok K (acj A) -> ab A = 0%nat -> vb x = 0%nat ->
  vs x = ars A ->
  let y := mkVec (ab A) (ap A) (acs A) (asi A) (acj A) in
  (vp x = vp y \/ vv_disj x y) ->
  forall i, (i < acs A)%nat ->
    vget (MultMV add alpha A x y m) y i =
      kadd (if add then vget m y i else k0)
           (kmul alpha (sum (ars A) (fun j => kmul (mget m A i j) (vget m x j)))).
Proof.
  intros (N1 & N2 & N3) Hn H2 H3 H4 H5 H6 y Hxy.
  assert (Iy : vinj y).
  { intros i j Hi Hj E. unfold vloc, y in E. cbn in E. injection E. nia. }
  refine (proj1 (C43_mult_mv K add alpha A x y m Iy H2 H3 H3 H4 H5 H4 H6 eq_refl _ _)); auto.
  destruct (Z.eq_dec (asi A) 1) as [E1|E1]; [|left; exact E1].
  right. right. cbn. repeat split; auto. destruct N3 as [N3|N3]; [right; exact N3|left; nia].
Qed.
Print Assumptions C43_into_first_column.

Theorem C43_into_first_row (K : scal) (add : bool) (alpha : K) (A : mat) (x : vec) (m : hmem K) :
  nested A -> cjok K (vcj x) -> cjok K (acj A) -> ab A = 0%nat -> vb x = 0%nat ->
  vs x = ars A -> acs A = ars A ->
  let y := mkVec (ab A) (ap A) (ars A) (asj A) (acj A) in
  (vp x = vp y \/ vv_disj x y) ->
  forall i, (i < acs A)%nat ->
    vget (MultMV add alpha A x y m) y i =
      kadd (if add then vget m y i else k0)
           (kmul alpha (sum (ars A) (fun j => kmul (mget m A i j) (vget m x j)))).
Proof.
  intros (N1 & N2 & N3) H2 H3 H4 H5 H6 HS y Hxy. rewrite HS.
  assert (Iy : vinj y).
  { intros i j Hi Hj E. unfold vloc, y in E. cbn in E. injection E. nia. }
  refine (proj1 (C43_mult_mv K add alpha A x y m Iy H2 H3 H3 H4 H5 H4 H6 (eq_sym HS) _ _)); auto.
  destruct (Z.eq_dec (asj A) 1) as [E1|E1]; [|left; exact E1].
  right. right. cbn. repeat split; auto.
Qed.
Print Assumptions C43_into_first_row.

Example C43_example :
  let A := mkMat 0 0 3 3 1 4 true in
  nested A /\ minj A /\ cjok ZC (acj A) /\
  vget (MultMV (K:=ZC) false ((0, 1) : ZC) A (mkVec 0 0 3 1 true) (mkVec 0 0 3 1 true)
          (fun l => (snd l, 1))) (mkVec 0 0 3 1 true) 1 = (18, 20).
Proof.
  cbn zeta. split; [|split; [|split]].
  - unfold nested. cbn. lia.
  - locs.
  - intros _. reflexivity.
  - vm_compute. reflexivity.
Qed.

(** Finding: with y contiguous and starting at the first element of an A that is
    neither row nor column major (here rows 6 and columns 2 apart), the column
    kernel overwrites elements of A it still needs. *)
Theorem C43_same_start_refuted :
  ~ (forall (x y : vec) (A : mat) (m : hmem ZK),
       minj A -> vinj y -> nested A -> vp y = ap A -> vv_disj x y -> vm_disj x A ->
       ab A = 0%nat -> vb x = 0%nat -> vb y = 0%nat -> vs x = ars A -> vs y = acs A ->
       acj A = false -> vcj x = false -> vcj y = false ->
       forall i, (i < vs y)%nat ->
         vget (MultMV false (1 : ZK) A x y m) y i = sum (ars A) (fun j => kmul (mget m A i j) (vget m x j))).
Proof.
  intro H.
  specialize (H (mkVec 0 30 2 1 false) (mkVec 0 0 3 1 false) (mkMat 0 0 3 2 6 2 false) (fun l => snd l)).
  assert (E : vget (MultMV (K:=ZK) false (1 : ZK) (mkMat 0 0 3 2 6 2 false) (mkVec 0 30 2 1 false) (mkVec 0 0 3 1 false)
     (fun l => snd l)) (mkVec 0 0 3 1 false) 0 = 62).
  { apply H; auto.
    - locs.
    - locs.
    - unfold nested. cbn. lia.
    - locs.
    - locs.
    - cbn. lia. }
  vm_compute in E. discriminate.
Qed.
Print Assumptions C43_same_start_refuted.
