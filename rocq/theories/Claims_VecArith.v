(** Properties C14 and C15: assignment, scaling and addition of vector views of
    one memory, for every element type, views of any (non-zero) step and either
    conjugation. *)
From Coq Require Import ZArith Lia Bool List.
From Verif Require Import Base Scal VecView VecOps VecOpsProofs VecArithProofs.
Import ListNotations.
Open Scope Z_scope.

(** C14.  [alias_ok v1 v2]: v1 and v2 have no element in common, or start at the
    same address with the same step. *)
Theorem C14_assignment_copies_values : forall (K : scal) v1 v2 (m : mem K),
  vstep v2 <> 0 -> vsize v1 = vsize v2 -> alias_ok v1 v2 ->
  exists m', copy v1 v2 m = Some m' /\ becomes v2 m m' (fun i => get m v1 i).
Proof. intros K v1 v2 m Hs Hn A. apply copy_ok; auto. apply alias_ok_safe; auto. Qed.
Print Assumptions C14_assignment_copies_values.

(** More generally, views sharing memory only at equal indices. *)
Theorem C14_assignment_safe_overlap : forall (K : scal) v1 v2 (m : mem K),
  vstep v2 <> 0 -> vsize v1 = vsize v2 ->
  (forall i j, 0 <= i < vsize v2 -> 0 <= j < vsize v2 -> addr v2 i = addr v1 j -> i = j) ->
  exists m', copy v1 v2 m = Some m' /\ becomes v2 m m' (fun i => get m v1 i).
Proof.
  intros K v1 v2 m Hs Hn A. apply copy_ok; auto. intros i j Hi Hj Hij E. apply Hij. eauto.
Qed.
Print Assumptions C14_assignment_safe_overlap.

Definition m0 : mem ZC := fun a => (a, 10 * a).
Example C14_hyp :
  let v1 := mkView 7 4 (-2) true true in let v2 := mkView 0 4 2 false true in
  alias_ok v1 v2 /\
  exists m', copy v1 v2 m0 = Some m' /\ List.map m' [0; 1; 2; 3; 4; 6; 7]
   = [(7, -70); (1, 10); (5, -50); (3, 30); (3, -30); (1, -10); (7, 70)].
Proof.
  cbv zeta. split.
  - left. intros a [i [Hi ->]] [j [Hj E]]. cbn [vsize] in *. unfold addr in E. cbn [vptr vstep] in E. lia.
  - eexists. split; [reflexivity|reflexivity].
Qed.
(** The conjugate of a vector assigned to the vector. *)
Example C14_hyp_same :
  let v1 := mkView 0 3 1 true true in let v2 := mkView 0 3 1 false true in
  alias_ok v1 v2 /\
  exists m', copy v1 v2 m0 = Some m' /\ List.map m' [0; 1; 2; 3] = [(0, 0); (1, -10); (2, -20); (3, 30)].
Proof. cbv zeta. split; [right; auto|]. eexists. split; [reflexivity|reflexivity]. Qed.

(** What the restriction excludes: v = v.reverse() is not the reversal. *)
Theorem C14_reversed_alias_refuted :
  exists v1 v2 (m : mem ZC) m' i, vchain (whole 3 true) [VReverse] = Ok v1 /\ v2 = whole 3 true /\
    copy v1 v2 m = Some m' /\ 0 <= i < 3 /\ get m' v2 i <> get m v1 i.
Proof.
  do 2 eexists. exists m0. eexists. exists 2. split; [reflexivity|]. split; [reflexivity|].
  split; [reflexivity|]. split; [lia|]. vm_compute. discriminate.
Qed.
Print Assumptions C14_reversed_alias_refuted.

(** C15.  [typed v]: v is a view of elements of type T. *)
Theorem C15_scale_in_place : forall (K : scal) x v (m : mem K),
  vstep v <> 0 -> typed (K:=K) v ->
  exists m', mult_xv x v m = Some m' /\ becomes v m m' (fun i => kmul x (get m v i)).
Proof. exact @mult_xv_ok. Qed.
Print Assumptions C15_scale_in_place.

Theorem C15_scaled_copy_partial : forall (K : scal) x v1 v2 (m : mem K),
  vstep v2 <> 0 -> vsize v1 = vsize v2 -> alias_ok v1 v2 ->
  typed (K:=K) v1 -> typed (K:=K) v2 ->
  exists m', mult_xvv x v1 v2 m = Some m' /\ becomes v2 m m' (fun i => kmul x (get m v1 i)).
Proof. intros. apply mult_xvv_ok; auto. apply alias_ok_safe; auto. Qed.
Print Assumptions C15_scaled_copy_partial.

Theorem C15_add_partial : forall (K : scal) x v1 v2 (m : mem K),
  vstep v2 <> 0 -> vsize v1 = vsize v2 -> alias_ok v1 v2 ->
  typed (K:=K) v1 -> typed (K:=K) v2 ->
  exists m', add_vv x v1 v2 m = Some m' /\
    becomes v2 m m' (fun i => kadd (get m v2 i) (kmul x (get m v1 i))).
Proof. intros. apply add_vv_ok; auto. apply alias_ok_safe; auto. Qed.
Print Assumptions C15_add_partial.

(** v3 = x1*v1 + x2*v2, also when both operands start where v3 does, with
    whatever steps; [tmp] is where the temporary, if any, is allocated. *)
Theorem C15_linear_combination_partial : forall (K : scal) tmp x1 v1 x2 v2 v3 (m : mem K),
  vstep v3 <> 0 -> vsize v1 = vsize v3 -> vsize v2 = vsize v3 ->
  typed (K:=K) v1 -> typed (K:=K) v2 -> typed (K:=K) v3 ->
  (alias_ok v1 v3 /\ alias_ok v2 v3 \/ vptr v1 = vptr v3 /\ vptr v2 = vptr v3) ->
  fresh tmp (vsize v3) v1 -> fresh tmp (vsize v3) v2 -> fresh tmp (vsize v3) v3 ->
  exists m', add_vvv tmp x1 v1 x2 v2 v3 m = Some m' /\
    (forall i, 0 <= i < vsize v3 ->
       get m' v3 i = kadd (kmul x1 (get m v1 i)) (kmul x2 (get m v2 i))) /\
    (forall a, ~ in_view v3 a -> ~ (tmp <= a < tmp + vsize v3) -> m' a = m a).
Proof. exact @add_vvv_ok. Qed.
Print Assumptions C15_linear_combination_partial.

(** Finding: views that start at the same address but have different steps are
    "aliases" by the manual's rule, yet v2 = x*v1 and v2 += x*v1 use elements
    already overwritten: here v2 = 3*v1 and v2 += 3*v1 with v1 = v.subVector(0,3)
    and v2 = v.subVector(0,6,2). *)
Theorem C15_same_start_refuted :
  exists v1 v2 (x : ZC) m' m'' i,
    sub_vector (whole 6 true) 0 3 = Ok v1 /\ sub_vector_step (whole 6 true) 0 6 2 = Ok v2 /\
    same_storage v1 v2 = true /\ 0 <= i < 3 /\
    mult_xvv x v1 v2 m0 = Some m' /\ get m' v2 i <> kmul x (get m0 v1 i) /\
    add_vv x v1 v2 m0 = Some m'' /\ get m'' v2 i <> kadd (get m0 v2 i) (kmul x (get m0 v1 i)).
Proof.
  do 2 eexists. exists (3, 0). do 2 eexists. exists 2.
  split; [reflexivity|]. split; [reflexivity|]. split; [reflexivity|]. split; [lia|].
  split; [reflexivity|]. split; [vm_compute; discriminate|].
  split; [reflexivity|]. vm_compute. discriminate.
Qed.
Print Assumptions C15_same_start_refuted.

Example C15_hyp :
  let v1 := mkView 9 3 (-2) true true in let v2 := mkView 0 3 3 false true in
  let v3 := mkView 0 3 3 true true in
  alias_ok v1 v3 /\ alias_ok v2 v3 /\ fresh 20 3 v1 /\ fresh 20 3 v2 /\ fresh 20 3 v3 /\
  exists m', add_vvv 20 ((1, 1) : ZC) v1 (0, 2) v2 v3 m0 = Some m' /\
    List.map m' [0; 3; 6; 1; 2]
    = [(99, 81); (17, 57); (-65, 33); (1, 10); (2, 20)].
Proof.
  cbv zeta. split.
  { left. intros a [i [Hi ->]] [j [Hj E]]. cbn [vsize] in *. unfold addr in E. cbn [vptr vstep] in E. lia. }
  split; [right; auto|].
  split; [intros i Hi; unfold addr; cbn [vsize vptr vstep] in *; lia|].
  split; [intros i Hi; unfold addr; cbn [vsize vptr vstep] in *; lia|].
  split; [intros i Hi; unfold addr; cbn [vsize vptr vstep] in *; lia|].
  eexists. split; [reflexivity|reflexivity].
Qed.
