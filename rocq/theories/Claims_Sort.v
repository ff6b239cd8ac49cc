(** Properties C07 and C08: sorting a vector. *)
From Coq Require Import List Arith Lia Bool Permutation ZArith.
From Verif Require Import Base Perm PermSpec PermProofs Sort.
Import ListNotations.

(** "In order" for key and direction: no later element comes strictly before an
    earlier one. *)
Definition ordered {A K} (key : A -> K) (ltK : K -> K -> bool) (ad : adtype) (w : list A) : Prop :=
  forall i j x y, i < j -> nth_error w i = Some x -> nth_error w j = Some y ->
    match ad with
    | Ascend => ltK (key y) (key x) = false
    | Descend => ltK (key x) (key y) = false
    end.

(** C07: for every key (any strict weak order whose negation reverses it),
    both directions, every vector and every std::sort allowed by its contract:
    the result is in order, is a rearrangement, p is legal (hence C01-C04
    apply), and p*v_old is the sorted vector. *)
Theorem C07_sort_with_permutation :
  forall (A K : Type) (key : A -> K) (neg : K -> K) (ltK : K -> K -> bool)
         (stdsort : (K * nat -> K * nat -> bool) -> list (K * nat) -> list (K * nat))
         (ad : adtype) (buf : list nat) (v : list A),
    strict_weak ltK -> (forall a b, ltK (neg a) (neg b) = ltK b a) ->
    std_sort_contract stdsort -> length v <= length buf ->
    exists P w,
      sort_p key neg ltK stdsort ad buf v = Ok (P, w) /\
      ordered key ltK ad w /\ Permutation v w /\
      legal (mkPerm (length v) P false) /\
      perm_apply (mkPerm (length v) P false) v = Ok w.
Proof.
  intros A K key neg ltK stdsort ad buf v HW HN HS Hb.
  destruct (sort_p_ok key neg ltK stdsort ad buf v HW HS Hb)
    as [P [w [E [LP [Leg [Ea [Pm Hn]]]]]]].
  exists P, w. split; [exact E|]. split; [|split; [exact Pm|split; [exact Leg|exact Ea]]].
  intros i j x y Hij Hx Hy. specialize (Hn i j x y Hij Hx Hy).
  unfold vt_key in Hn. destruct ad; [exact Hn|]. rewrite HN in Hn. exact Hn.
Qed.
Print Assumptions C07_sort_with_permutation.

Lemma Zlt_strict_weak : strict_weak Z.ltb.
Proof.
  split; [intro; apply Z.ltb_irrefl|]. split.
  - intros x y z H1 H2. apply Z.ltb_lt in H1, H2. apply Z.ltb_lt. lia.
  - intros x y z H1 H2. apply Z.ltb_ge in H1, H2. apply Z.ltb_ge. lia.
Qed.

Example C07_hyp :
  strict_weak Z.ltb /\ (forall a b, Z.ltb (- a) (- b) = Z.ltb b a) /\
  std_sort_contract (@isort (Z * nat)) /\
  sort_p (@id Z) Z.opp Z.ltb isort Descend [0; 0; 0; 0] [3; 7; 5; 7]%Z
    = Ok ([1; 3; 2; 3], [7; 7; 5; 3]%Z).
Proof.
  split; [apply Zlt_strict_weak|]. split.
  - intros a b. destruct (Z.ltb_spec (-a) (-b)), (Z.ltb_spec b a); auto; lia.
  - split; [apply isort_contract|reflexivity].
Qed.

(** The elements of the view (offset off, size n, step s). *)
Definition view_elems {A} (off n s : nat) (mem : list A) : list (option A) :=
  map (fun i => nth_error mem (off + i * s)) (seq 0 n).

(** C08 for views of step 1, conjugated or not: [cj] is the conjugation through
    which a conjugated view sees its elements. *)
Theorem C08_sort_step1_partial :
  forall (A K : Type) (key : A -> K) (neg : K -> K) (ltK : K -> K -> bool) (cj : A -> A)
         (stdsort : (A -> A -> bool) -> list A -> list A)
         (ad : adtype) (keyconj conj : bool) (off n : nat) (mem : list A),
    strict_weak ltK -> (forall a b, ltK (neg a) (neg b) = ltK b a) ->
    (forall x, key (cj x) = if keyconj then neg (key x) else key x) ->
    std_sort_contract stdsort -> off + n <= length mem ->
    exists mem',
      sort_0 key ltK stdsort ad keyconj conj off n mem = Ok mem' /\
      length mem' = length mem /\
      firstn off mem' = firstn off mem /\ skipn (off + n) mem' = skipn (off + n) mem /\
      Permutation (firstn n (skipn off mem)) (firstn n (skipn off mem')) /\
      ordered key ltK ad (map (fun x => if conj then cj x else x) (firstn n (skipn off mem'))).
Proof.
  intros A K key neg ltK cj stdsort ad keyconj conj off n mem HW HN HC HS Hb.
  destruct (sort_0_ok key ltK stdsort ad keyconj conj off n mem HW HS Hb)
    as [mem' [E [L [F [S [P N]]]]]].
  exists mem'. repeat (split; [assumption|]).
  intros i j x y Hij Hx Hy. rewrite nth_error_map in Hx, Hy.
  destruct (nth_error (firstn n (skipn off mem')) i) as [x0|] eqn:Ex; [|discriminate].
  destruct (nth_error (firstn n (skipn off mem')) j) as [y0|] eqn:Ey; [|discriminate].
  simpl in Hx, Hy. injection Hx as <-. injection Hy as <-.
  specialize (N i j x0 y0 Hij Ex Ey). unfold compare in N.
  destruct conj, keyconj, ad; simpl in *; rewrite ?HC, ?HN; exact N.
Qed.
Print Assumptions C08_sort_step1_partial.

Example C08_hyp :
  sort_0 (@id Z) Z.ltb isort Ascend false false 1 3 [9; 8; 2; 5; 0]%Z = Ok [9; 2; 5; 8; 0]%Z.
Proof. reflexivity. Qed.

(** Finding: for step 2 and every allowed std::sort, sorting the view changes an
    element outside the view and loses an element of the view. *)
Theorem C08_sort_step2_refuted :
  exists (off n s : nat) (mem : list Z),
    forall stdsort, std_sort_contract stdsort ->
    exists mem', sort_0 (@id Z) Z.ltb stdsort Ascend false false off n mem = Ok mem' /\
      ~ Permutation (view_elems off n s mem) (view_elems off n s mem') /\
      (exists k, (forall i, i < n -> k <> off + i * s) /\ nth_error mem' k <> nth_error mem k).
Proof.
  exists 0, 2, 2, [9; 3; 10]%Z. intros srt HS.
  destruct (HS (compare (@id Z) Z.ltb Ascend) [9; 3]%Z) as [Hp Hn].
  { exact Zlt_strict_weak. }
  assert (E : srt (compare (@id Z) Z.ltb Ascend) [9; 3]%Z = [3; 9]%Z).
  { destruct (srt (compare (@id Z) Z.ltb Ascend) [9; 3]%Z) as [|a [|b [|c t]]] eqn:Er;
      try (apply Permutation_length in Hp; discriminate).
    specialize (Hn 0 1 a b ltac:(lia) eq_refl eq_refl).
    apply Permutation_length_2_inv in Hp. destruct Hp as [[= -> ->]|[= -> ->]]; [|reflexivity].
    discriminate. }
  eexists. split; [unfold sort_0; simpl; rewrite E; reflexivity|]. split.
  - simpl. intro X. apply (Permutation_in (Some 9%Z)) in X; [|left; reflexivity].
    simpl in X. destruct X as [X|[X|[]]]; discriminate.
  - exists 1. split; [intros i Hi; lia|]. simpl. discriminate.
Qed.
Print Assumptions C08_sort_step2_refuted.

(** Finding: a reversed view (step -1, ptr() at the last element) makes
    std::sort run past the end of the allocation. *)
Theorem C08_sort_reversed_refuted :
  forall stdsort : (Z -> Z -> bool) -> list Z -> list Z,
    sort_0 (@id Z) Z.ltb stdsort Ascend false false 2 3 [1; 2; 3]%Z = UB.
Proof. reflexivity. Qed.
Print Assumptions C08_sort_reversed_refuted.
