(** Property C19: aligned storage is aligned, inside its allocation, and owned
    by exactly one array, through every history of constructions, resizes,
    swaps and destructions. *)
From Coq Require Import List Arith Lia Bool ZArith.
From Verif Require Import Base Align.
Import ListNotations.
Local Open Scope Z_scope.

(** The bytes of the n elements of an array object. *)
Definition elements (c : cfg) (o : arr) : block := (ap o, an o * elt c).
Definition within (b1 b2 : block) : Prop :=
  fst b2 <= fst b1 /\ fst b1 + snd b1 <= fst b2 + snd b2.
Definition none_alive : nat -> bool := fun _ => false.
Definition no_sizes : nat -> option Z := fun _ => None.

(** For every element type, build option without padding overrun (see below),
    allocator and well-formed history: no step frees a block twice, stores
    outside a live block or otherwise fails; each array has the size last
    given to it; the elements of every non-empty array lie in a live block,
    start at a 16-byte boundary for float, double and their complex types, and
    are disjoint from those of every other array. *)
Theorem C19_array_histories :
  forall (c : cfg) (alloc : nat -> list block -> Z -> Z) (h : list aop),
    allocator_ok alloc -> (forall s, kd c = KGen s -> 0 < s) -> pad_safe c alloc ->
    wf_hist none_alive h ->
    exists s, arun alloc c ast0 h = Ok s /\
      (forall x, sizes no_sizes h x = option_map an (arrs s x)) /\
      (forall x o, arrs s x = Some o -> 0 < an o ->
         (exists b, In b (live s) /\ within (elements c o) b) /\
         (kd c = KFloat \/ kd c = KDouble -> ap o mod 16 = 0)) /\
      (forall x y o o', x <> y -> arrs s x = Some o -> arrs s y = Some o' ->
         0 < an o -> 0 < an o' -> disjoint (elements c o) (elements c o')) /\
      (forall b, In b (live s) -> exists x o, arrs s x = Some o /\ 0 < an o /\ within (elements c o) b).
Proof.
  intros c alloc h Ha Hk Hp W.
  destruct (run_ok alloc c Ha Hk Hp h ast0 none_alive no_sizes (ainv0 c)
              (fun _ => eq_refl) (fun _ => eq_refl) W) as [s [E [I Hs]]].
  exists s. split; [exact E|]. split; [exact Hs|].
  assert (OWN : forall x o, arrs s x = Some o -> 0 < an o ->
     exists a, amem o = Some a /\ ap o = start (kd c) a /\
       In (a, bytes (pad c) (kd c) (cells c (an o))) (live s) /\
       within (elements c o) (a, bytes (pad c) (kd c) (cells c (an o)))).
  { intros x o Hx Hn. destruct (amem o) as [a|] eqn:Em.
    - destruct (ai_own _ _ I x o a Hx Em) as [H1 [H2 H3]].
      exists a. repeat split; auto.
      + cbn [elements fst]. rewrite H2. apply (start_fits (pad c) (kd c) (cells c (an o)) a Hk (cells_pos c _ Hn)).
      + cbn [elements fst snd]. rewrite H2.
        destruct (start_fits (pad c) (kd c) (cells c (an o)) a Hk (cells_pos c _ Hn)) as [_ F].
        etransitivity; [|exact F]. apply Z.eq_le_incl. f_equal.
        unfold elt, cells. destruct (cplx c); [rewrite Z.shiftl_mul_pow2 by lia|]; ring.
    - pose proof (ai_null _ _ I x o Hx Em). lia. }
  split; [|split].
  - intros x o Hx Hn. destruct (OWN x o Hx Hn) as [a [_ [H2 [H3 H4]]]]. split.
    + eexists. split; [exact H3|exact H4].
    + intros [K|K]; rewrite H2, K; cbn [start]; apply calc_p_spec.
  - intros x y o o' Nxy Hx Hy Hn Hn'.
    destruct (OWN x o Hx Hn) as [a [A1 [A2 [A3 [A4 A5]]]]].
    destruct (OWN y o' Hy Hn') as [a' [B1 [B2 [B3 [B4 B5]]]]].
    destruct (ai_disj _ _ I _ _ A3 B3) as [Q|Q].
    + injection Q as Q _. subst a'. destruct (Nxy (ai_uniq _ _ I x y o o' a Hx Hy A1 B1)).
    + unfold disjoint in *. cbn [fst snd] in *. lia.
  - intros b Hb. destruct (ai_noleak _ _ I b Hb) as [x [o [Hx Em]]].
    destruct (ai_own _ _ I x o _ Hx Em) as [H1 [H2 H3]].
    exists x, o. split; [exact Hx|]. split; [exact H1|].
    destruct (OWN x o Hx H1) as [a [A1 [_ [A3 A4]]]].
    rewrite Em in A1. injection A1 as <-.
    destruct (ai_disj _ _ I _ _ A3 Hb) as [<-|Q]; [exact A4|].
    pose proof (ai_pos _ _ I _ Hb). pose proof (ai_pos _ _ I _ A3).
    unfold disjoint in Q. cbn [fst snd] in *. lia.
Qed.
Print Assumptions C19_array_histories.

(** Nothing leaks: once every array is destroyed no block is live. *)
Theorem C19_no_leak :
  forall (c : cfg) (alloc : nat -> list block -> Z -> Z) (h : list aop),
    allocator_ok alloc -> (forall s, kd c = KGen s -> 0 < s) -> pad_safe c alloc ->
    wf_hist none_alive h -> (forall x, sizes no_sizes h x = None) ->
    exists s, arun alloc c ast0 h = Ok s /\ live s = [].
Proof.
  intros c alloc h Ha Hk Hp W N.
  destruct (C19_array_histories c alloc h Ha Hk Hp W) as [s [E [Hs [_ [_ HL]]]]].
  exists s. split; [exact E|]. destruct (live s) as [|b l] eqn:El; [reflexivity|exfalso].
  destruct (HL b (or_introl eq_refl)) as [x [o [Hx _]]].
  specialize (Hs x). rewrite N, Hx in Hs. discriminate.
Qed.
Print Assumptions C19_no_leak.

(** A bump allocator that keeps every block odd-aligned. *)
Definition bump (t : nat) (lv : list block) (len : Z) : Z :=
  1 + fold_right (fun b acc => Z.max (fst b + snd b) acc) 0 lv.

Lemma bump_ok : allocator_ok bump.
Proof.
  intros t lv len Hl b Hb. right. unfold bump. cbn [fst snd].
  enough (fst b + snd b <= fold_right (fun b acc => Z.max (fst b + snd b) acc) 0 lv) by lia.
  induction lv as [|b' l IH]; [contradiction|]. cbn [fold_right].
  destruct Hb as [->|Hb]; [lia|]. specialize (IH Hb). lia.
Qed.

Definition hist1 : list aop :=
  [ANew 0 3; ANew 1 0; ASwap 0 1; AResize 0 5; ADel 1; ANew 1 2; AResize 0 0].

Example C19_hyp :
  allocator_ok bump /\ wf_hist none_alive hist1 /\
  (exists s, arun bump (mkCfg false true KDouble true) ast0 hist1 = Ok s /\
     live s = [(161, 47)] /\ option_map ap (arrs s 1) = Some 176) /\
  (exists s, arun bump (mkCfg false true KDouble true) ast0 (hist1 ++ [ADel 1; ADel 0]) = Ok s /\ live s = []).
Proof.
  split; [exact bump_ok|]. split; [cbn; auto 20|]. split.
  - eexists. split; [vm_compute; reflexivity|]. split; reflexivity.
  - eexists. split; [vm_compute; reflexivity|]. reflexivity.
Qed.

(** Aligned by 16 and padded: also covered. *)
Definition bump16 (t : nat) (lv : list block) (len : Z) : Z :=
  16 * (1 + fold_right (fun b acc => Z.max (fst b + snd b) acc) 0 lv).

Example C19_hyp_padded :
  allocator_ok bump16 /\ pad_safe (mkCfg true true KFloat false) bump16.
Proof.
  split.
  - intros t lv len Hl b Hb. right. unfold bump16. cbn [fst snd].
    assert (0 <= fold_right (fun b acc => Z.max (fst b + snd b) acc) 0 lv).
    { clear. induction lv; cbn [fold_right]; lia. }
    enough (fst b + snd b <= fold_right (fun b acc => Z.max (fst b + snd b) acc) 0 lv) by lia.
    clear H. induction lv as [|b' l IH]; [contradiction|]. cbn [fold_right].
    destruct Hb as [->|Hb]; [lia|]. specialize (IH Hb). lia.
  - right. right. intros. unfold bump16. apply Z.divide_factor_l.
Qed.

(** With TMV_END_PADDING the library's own zero fill leaves the block exactly
    when the allocator's block starts 4 or more (float), 8 or more (double)
    bytes before a 16-byte boundary: for any request, any address and any live
    blocks disjoint from the new one. *)
Theorem C19_padding_exact :
  forall (c : cfg) (alloc : nat -> list block -> Z -> Z) (n : Z) (lv : list block) (t : nat),
    allocator_ok alloc -> pad c = true -> 0 < n -> (kd c = KFloat \/ kd c = KDouble) ->
    let a := alloc t lv (bytes true (kd c) (cells c n)) in
    (forall b, In b lv -> snd b > 0 /\ fst b >= a + bytes true (kd c) (cells c n) + 32 \/ fst b + snd b <= a) ->
    (alloc_arr alloc c n lv t = UB <-> esz (kd c) <= (16 - a mod 16) mod 16).
Proof.
  intros c alloc n lv t Ha Hp Hn HK a Hfar.
  assert (Hk : forall s, kd c = KGen s -> 0 < s) by (intros s E; destruct HK; congruence).
  assert (Hm := cells_pos c n Hn). set (m := cells c n) in *.
  destruct (calc_p_spec a) as [R [AL OFF]]. rewrite <- OFF. set (b := bytes true (kd c) m) in *.
  assert (ES : esz (kd c) = 4 /\ pad_end (kd c) m = m + 7 /\ b = m * 4 + 31 \/
               esz (kd c) = 8 /\ pad_end (kd c) m = m + 3 /\ b = m * 8 + 31).
  { unfold b. destruct HK as [K|K]; rewrite K; [left|right]; cbn [esz bytes]; split; auto;
    rewrite ?pad_end_float, ?pad_end_double; split; auto; rewrite Z.shiftl_mul_pow2 by lia;
    [change (2 ^ 2) with 4|change (2 ^ 3) with 8]; lia. }
  assert (ST : start (kd c) a = calc_p a) by (destruct HK as [K|K]; rewrite K; reflexivity).
  unfold alloc_arr. rewrite (proj2 (Z.ltb_lt 0 n) Hn). rewrite Hp. fold m. fold b. fold a.
  rewrite ST. split.
  - intro U. destruct (Z_le_gt_dec (esz (kd c)) (calc_p a - a)) as [L|G]; [exact L|exfalso].
    rewrite (stores_ok _ a b) in U; [|left; reflexivity|destruct ES as [[-> _]|[-> _]]; lia|
      destruct ES as [[-> _]|[-> _]]; lia|
      intros _; destruct ES as [[E1 [-> ->]]|[E1 [-> ->]]]; rewrite E1 in *; lia].
    cbn [bindO] in U.
    destruct (nan c); [|discriminate].
    rewrite (stores_ok _ a b) in U; [discriminate|left; reflexivity|destruct ES as [[-> _]|[-> _]]; lia|
      destruct ES as [[-> _]|[-> _]]; lia|
      intros _; destruct ES as [[E1 [_ ->]]|[E1 [_ ->]]]; rewrite E1 in *; lia].
  - intro L.
    rewrite (stores_bad _ _ _ _ _ (pad_end (kd c) m - 1)); [reflexivity|destruct ES as [[_ [-> _]]|[_ [-> _]]]; lia|].
    destruct (in_live _ _ _) eqn:IL; [exfalso|reflexivity].
    unfold in_live in IL. apply existsb_exists in IL. destruct IL as [bb [Hin Hb]].
    apply andb_true_iff in Hb. destruct Hb as [B1 B2]. apply Z.leb_le in B1, B2.
    destruct Hin as [<-|Hin].
    + cbn [fst snd] in *. destruct ES as [[E1 [E2 E3]]|[E1 [E2 E3]]]; rewrite E1, E2, E3 in *; lia.
    + specialize (Hfar bb Hin).
      destruct ES as [[E1 [E2 E3]]|[E1 [E2 E3]]]; rewrite E1, E2, E3 in *; lia.
Qed.
Print Assumptions C19_padding_exact.

(** So with TMV_END_PADDING the property fails for an allocator that aligns to
    8 bytes only, already for a one-element float array. *)
Theorem C19_padding_refuted :
  exists (alloc : nat -> list block -> Z -> Z) (h : list aop),
    allocator_ok alloc /\ (forall t lv len, (8 | alloc t lv len)) /\ wf_hist none_alive h /\
    arun alloc (mkCfg true false KFloat false) ast0 h = UB /\
    arun alloc (mkCfg true false KDouble true) ast0 h = UB.
Proof.
  exists (fun t lv len => 8 + bump16 t lv len), [ANew 0 1].
  split; [|split; [|split; [cbn; auto|split; vm_compute; reflexivity]]].
  - intros t lv len Hl b Hb. destruct C19_hyp_padded as [H _].
    assert (G := H t lv (8 + len) ltac:(lia) b Hb). unfold disjoint, bump16 in *. cbn [fst snd] in *.
    destruct G as [G|G]; [left|right]; lia.
  - intros. unfold bump16. apply Z.divide_add_r; [exists 1; reflexivity|].
    apply Z.divide_mul_l. exists 2. reflexivity.
Qed.
Print Assumptions C19_padding_refuted.
