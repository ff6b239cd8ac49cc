(** Properties C38 and C39: Swap, operator== and elementwise products of vector
    views, for every element type, non-zero steps and either conjugation. *)
From Coq Require Import ZArith Lia Bool List.
From Verif Require Import Base Scal VecView VecOps VecOpsProofs VecArithProofs VecMore.
Import ListNotations.
Open Scope Z_scope.

Theorem C38_swap : forall (K : scal) v1 v2 (m : mem K),
  vstep v1 <> 0 -> vstep v2 <> 0 -> vsize v1 = vsize v2 -> disjoint v1 v2 ->
  typed (K:=K) v1 -> typed (K:=K) v2 ->
  exists m', swap_vv v1 v2 m = Some (Ok m') /\
    (forall i, 0 <= i < vsize v1 -> get m' v1 i = get m v2 i /\ get m' v2 i = get m v1 i) /\
    (forall a, ~ in_view v1 a -> ~ in_view v2 a -> m' a = m a).
Proof. intros. apply swap_vv_ok; assumption. Qed.
Print Assumptions C38_swap.

Theorem C38_swap_sizes : forall (K : scal) v1 v2 (m : mem K),
  vsize v1 <> vsize v2 -> swap_vv v1 v2 m = Some (Throw FailedAssert).
Proof.
  intros K v1 v2 m H. unfold swap_vv. cbn [swap_vv_fuel]. rewrite (proj2 (Z.eqb_neq _ _) H). reflexivity.
Qed.
Print Assumptions C38_swap_sizes.

(** Views of any step and any overlap. *)
Theorem C38_equality : forall (K : scal) v1 v2 (m : mem K), 0 <= vsize v1 ->
  vec_eq v1 v2 m = true <->
  vsize v1 = vsize v2 /\ forall i, 0 <= i < vsize v1 -> get m v1 i = get m v2 i.
Proof. intros. apply vec_eq_ok. assumption. Qed.
Print Assumptions C38_equality.

Definition m0 : mem ZC := fun a => (a, 10 * a).
Example C38_hyp :
  let v1 := mkView 4 3 (-2) true true in let v2 := mkView 1 3 4 false true in
  disjoint v1 v2 /\ typed (K:=ZC) v1 /\ typed (K:=ZC) v2 /\ vec_eq v1 v2 m0 = false /\
  vec_eq (v_conjugate (v_reverse v1)) (mkView 0 3 2 false true) m0 = true /\
  exists m', swap_vv v1 v2 m0 = Some (Ok m') /\
    List.map m' [0; 2; 4; 1; 5; 9; 3] = [(9, -90); (5, -50); (1, -10); (4, -40); (2, -20); (0, 0); (3, 30)].
Proof.
  cbv zeta. split.
  { intros a [i [Hi ->]] [j [Hj E]]. cbn [vsize] in *. unfold addr in E. cbn [vptr vstep] in E. lia. }
  split; [reflexivity|]. split; [reflexivity|]. split; [reflexivity|]. split; [reflexivity|].
  eexists. split; [reflexivity|reflexivity].
Qed.

(** C39.  z = alpha*ElemProd(x,y) (add=false) and z += alpha*ElemProd(x,y)
    (add=true), alpha not zero, x and y each disjoint from z or viewing the same
    elements in the same order. *)
Theorem C39_elem_prod_partial : forall (K : scal) tx ty (alpha : K) x y z (m : mem K),
  alpha <> k0 -> vstep z <> 0 -> vsize x = vsize z -> vsize y = vsize z ->
  typed (K:=K) x -> typed (K:=K) y -> typed (K:=K) z -> alias_ok x z -> alias_ok y z ->
  exists m', elem_mult tx ty false alpha x y z m = Some m' /\
    becomes z m m' (fun i => kmul alpha (kmul (get m x i) (get m y i))).
Proof.
  intros K tx ty alpha x y z m H1 H2 H3 H4 H5 H6 H7 H8 H9.
  exact (elem_mult_ok tx ty false alpha x y z m H1 H2 H3 H4 H5 H6 H7 H8 H9).
Qed.
Print Assumptions C39_elem_prod_partial.

Theorem C39_elem_prod_add_partial : forall (K : scal) tx ty (alpha : K) x y z (m : mem K),
  vstep z <> 0 -> vsize x = vsize z -> vsize y = vsize z ->
  typed (K:=K) x -> typed (K:=K) y -> typed (K:=K) z -> alias_ok x z -> alias_ok y z ->
  exists m', elem_mult tx ty true alpha x y z m = Some m' /\
    becomes z m m' (fun i => kadd (get m z i) (kmul alpha (kmul (get m x i) (get m y i)))).
Proof. intros. apply elem_mult_add_ok; assumption. Qed.
Print Assumptions C39_elem_prod_add_partial.

(** With alpha = 0, z = alpha*ElemProd(x,y) leaves z as it was
    (TMV_MultXV.cpp:447: the guard also covers add=false). *)
Theorem C39_zero_factor_refuted :
  exists x y z (m m' : mem ZK) i,
    disjoint x z /\ disjoint y z /\ vsize x = vsize z /\ vsize y = vsize z /\ 0 <= i < vsize z /\
    elem_mult 100 200 false (k0 : ZK) x y z m = Some m' /\
    get m' z i <> kmul (k0 : ZK) (kmul (get m x i) (get m y i)).
Proof.
  exists (mkView 0 2 1 false false), (mkView 2 2 1 false false), (mkView 4 2 1 false false).
  exists (fun a => a). eexists. exists 0.
  split; [|split; [|split; [reflexivity|split; [reflexivity|split; [cbn; lia|split; [reflexivity|vm_compute; discriminate]]]]]];
  intros a [i [Hi ->]] [j [Hj E]]; cbn [vsize] in *; unfold addr in E; cbn [vptr vstep] in E; lia.
Qed.
Print Assumptions C39_zero_factor_refuted.

(** The overlap test is the wrong way round: an operand starting where z starts
    with a smaller step is overwritten before it is read. *)
Theorem C39_same_start_refuted :
  exists x y z (m m' : mem ZK) i,
    sub_vector (whole 6 false) 0 3 = Ok x /\ sub_vector_step (whole 6 false) 0 6 2 = Ok z /\
    y = mkView 10 3 1 false false /\ 0 <= i < 3 /\
    elem_mult 100 200 false (1 : ZK) x y z m = Some m' /\
    get m' z i <> kmul (get m x i) (get m y i).
Proof.
  eexists. exists (mkView 10 3 1 false false). eexists. exists (fun a => a). eexists. exists 2.
  split; [reflexivity|]. split; [reflexivity|]. split; [reflexivity|]. split; [lia|].
  split; [reflexivity|]. vm_compute. discriminate.
Qed.
Print Assumptions C39_same_start_refuted.

Example C39_hyp :
  let x := mkView 4 3 (-2) true true in let y := mkView 1 3 4 false true in
  let z := mkView 1 3 4 true true in
  alias_ok x z /\ alias_ok y z /\
  exists m', elem_mult 100 200 true ((1, 1) : ZC) x y z m0 = Some m' /\
    List.map m' [1; 5; 9; 0] = [(405, -394); (1015, -960); (9, 90); (0, 0)].
Proof.
  cbv zeta. split.
  { left. intros a [i [Hi ->]] [j [Hj E]]. cbn [vsize] in *. unfold addr in E. cbn [vptr vstep] in E. lia. }
  split; [right; auto|]. eexists. split; [reflexivity|]. vm_compute. reflexivity.
Qed.
