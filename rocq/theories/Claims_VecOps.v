(** Property C12: what the modifying functions of a vector view do, and that
    they do nothing else.  [becomes v m m' f] (VecOps.v): afterwards v(i) = f i
    for every i, reading through v's own conjugation, and no memory outside v has
    changed.  All for every element type, every memory and every view with a
    non-zero step of either sign. *)
From Coq Require Import ZArith Lia Bool List.
From Verif Require Import Base Scal VecView VecOps VecOpsProofs VecPermProofs.
Import ListNotations.
Open Scope Z_scope.

Theorem C12_setZero : forall (K : scal) v (m : mem K), vstep v <> 0 ->
  becomes v m (set_zero v m) (fun _ => k0).
Proof.
  intros K v m Hs. apply (maps_becomes (fun _ => k0)); [|apply set_zero_maps; auto].
  intros. rewrite cj_0. destruct (vconj v); reflexivity.
Qed.
Print Assumptions C12_setZero.

(** Missing: a conjugated view with step 1 or -1 and a non-real value. *)
Theorem C12_setAllTo_partial : forall (K : scal) v x (m : mem K), vstep v <> 0 ->
  (vconj v = false \/ Z.abs (vstep v) <> 1 \/ cj x = x) ->
  becomes v m (set_all_to v x m) (fun _ => x).
Proof.
  intros K v x m Hs Hx.
  apply (maps_becomes (fun _ => if vconj v then cj x else x)); [|apply set_all_to_maps; auto].
  intros. apply conj1.
Qed.
Print Assumptions C12_setAllTo_partial.

Definition m0 : mem ZC := fun a => (a, 10 * a).

(** Finding: v.conjugate().setAllTo(x) stores x, so the view reads conj(x). *)
Theorem C12_setAllTo_conjugate_refuted :
  exists v (x : ZC), vchain (whole 3 true) [VConjugate] = Ok v /\
    get (set_all_to v x m0) v 1 = cj x /\ get (set_all_to v x m0) v 1 <> x.
Proof. do 2 eexists. split; [reflexivity|]. split; [instantiate (1 := (1, 2)); reflexivity|]. discriminate. Qed.
Print Assumptions C12_setAllTo_conjugate_refuted.

(** Finding: an empty view with step 0 (VectorViewOf(p,0,0)) is written to. *)
Theorem C12_empty_step0_refuted :
  exists v (x : ZC), vsize v = 0 /\ ~ same_outside v m0 (set_all_to v x m0).
Proof.
  exists (mkView 5 0 0 false true), (1, 2). split; [reflexivity|].
  intro H. specialize (H 5). discriminate H. intros [i [Hi _]]. cbn [vsize] in Hi. lia.
Qed.
Print Assumptions C12_empty_step0_refuted.

Theorem C12_addToAll : forall (K : scal) v x (m : mem K), vstep v <> 0 ->
  becomes v m (add_to_all v x m) (fun i => kadd (get m v i) x).
Proof.
  intros K v x m Hs.
  apply (maps_becomes (fun y => kadd y (if vconj v then cj x else x))); [|apply add_to_all_maps; auto].
  intros i Hi. unfold get. destruct (vconj v); [|reflexivity]. rewrite cj_add, cj_cj. reflexivity.
Qed.
Print Assumptions C12_addToAll.

(** [small y] stands for abs(y) < thresh, which does not depend on conjugation. *)
Theorem C12_clip : forall (K : scal) (small : K -> bool) v (m : mem K), vstep v <> 0 ->
  (forall y, small (cj y) = small y) ->
  becomes v m (clip small v m) (fun i => if small (get m v i) then k0 else get m v i).
Proof.
  intros K small v m Hs Hsm.
  apply (maps_becomes (fun y => if small y then k0 else y)); [|apply clip_maps; auto].
  intros i Hi. unfold get. destruct (vconj v); [|reflexivity]. rewrite Hsm.
  destruct (small _); [apply cj_0|reflexivity].
Qed.
Print Assumptions C12_clip.

Theorem C12_conjugateSelf : forall (K : scal) v (m : mem K), vstep v <> 0 ->
  becomes v m (conjugate_self v m) (fun i => cj (get m v i)).
Proof.
  intros K v m Hs. apply (maps_becomes cj); [|apply conjugate_self_maps; auto].
  intros i Hi. unfold get. destruct (vconj v); reflexivity.
Qed.
Print Assumptions C12_conjugateSelf.

Theorem C12_makeBasis : forall (K : scal) v i (m : mem K), vstep v <> 0 -> 0 <= i < vsize v ->
  exists m', make_basis v i m = Ok m' /\ becomes v m m' (fun j => if j =? i then k1 else k0).
Proof. exact @make_basis_ok. Qed.
Print Assumptions C12_makeBasis.

Theorem C12_swap : forall (K : scal) v i j (m : mem K), vstep v <> 0 ->
  0 <= i < vsize v -> 0 <= j < vsize v ->
  exists m', v_swap v i j m = Ok m' /\
    becomes v m m' (fun k => get m v (if k =? i then j else if k =? j then i else k)).
Proof.
  intros K v i j m Hs Hi Hj. unfold v_swap.
  rewrite (proj2 (Z.leb_le 0 i)), (proj2 (Z.leb_le 0 j)), (proj2 (Z.ltb_lt i _)), (proj2 (Z.ltb_lt j _)) by lia.
  eexists. split; [reflexivity|]. apply do_swap_ok; auto.
Qed.
Print Assumptions C12_swap.

Theorem C12_swap_out_of_range : forall (K : scal) v i j (m : mem K),
  ~ (0 <= i < vsize v /\ 0 <= j < vsize v) -> v_swap v i j m = Throw FailedAssert.
Proof.
  intros K v i j m H. unfold v_swap.
  destruct (Z.leb_spec 0 i), (Z.ltb_spec i (vsize v)), (Z.leb_spec 0 j), (Z.ltb_spec j (vsize v));
    try reflexivity. lia.
Qed.
Print Assumptions C12_swap_out_of_range.

(** Finding: a Vector<T,FortranStyle> refuses to swap its last element: DoSwap
    repeats the C-style bound on the 1-based index. *)
Theorem C12_fortran_swap_last_refuted :
  exists n i j, 1 <= i <= n /\ 1 <= j <= n /\ i <> j /\ vec_swap_f n i j m0 = Throw FailedAssert.
Proof. exists 3, 1, 3. repeat split; try lia. Qed.
Print Assumptions C12_fortran_swap_last_refuted.

(** permute(p,i1,i2) performs the interchanges (i,p[i]) for i = i1, ..., i2-1 in
    that order: [fetched] says where each final element comes from. *)
Theorem C12_permute : forall (K : scal) v p i1 i2 (m : mem K), vstep v <> 0 ->
  0 <= i1 <= i2 -> i2 <= vsize v -> (forall i, i1 <= i < i2 -> 0 <= p i < vsize v) ->
  exists m', permute v p i1 i2 m = Ok m' /\
    becomes v m m' (fun k => get m v (fetched p (Z.to_nat (i2 - i1)) i1 k)).
Proof. exact @permute_ok. Qed.
Print Assumptions C12_permute.

Theorem C12_reversePermute_undoes_permute : forall (K : scal) v p i1 i2 (m : mem K), vstep v <> 0 ->
  0 <= i1 <= i2 -> i2 <= vsize v -> (forall i, i1 <= i < i2 -> 0 <= p i < vsize v) ->
  exists m' m'', permute v p i1 i2 m = Ok m' /\ reverse_permute v p i1 i2 m' = Ok m'' /\
    becomes v m m'' (get m v).
Proof. exact @permute_round_trip. Qed.
Print Assumptions C12_reversePermute_undoes_permute.

Theorem C12_reverseSelf : forall (K : scal) v (m : mem K), vstep v <> 0 -> 0 <= vsize v ->
  exists m', reverse_self v m = Some m' /\ becomes v m m' (fun i => get m v (vsize v - 1 - i)).
Proof. exact @reverse_self_ok. Qed.
Print Assumptions C12_reverseSelf.

(** A view that meets the hypotheses: every other element of a vector, backwards
    and conjugated; and what the operations do to it. *)
Definition vex : view := mkView 9 4 (-2) true true.
Example C12_hyp : vchain (whole 10 true) [VSubStep 1 9 2; VReverse; VConjugate] = Ok (mkView 7 4 (-2) true true).
Proof. reflexivity. Qed.
Example C12_run :
  List.map (fun a => (add_to_all vex ((1, 2) : ZC) m0) a) [2; 3; 4; 5; 9; 10]
  = [(2, 20); (4, 28); (4, 40); (6, 48); (10, 88); (10, 100)] /\
  (exists m', make_basis vex 1 m0 = Ok m' /\ List.map m' [3; 5; 7; 8; 9] = [(0, 0); (0, 0); (1, 0); (8, 80); (0, 0)]) /\
  (exists m', permute vex (fun i => if i =? 0 then 2 else 3) 0 2 m0 = Ok m' /\
     List.map m' [9; 7; 5; 3] = [(5, 50); (3, 30); (9, 90); (7, 70)]).
Proof.
  split; [reflexivity|]. split; eexists; (split; [reflexivity|reflexivity]).
Qed.
