(** Queries on a vector view: extreme elements, sums and norms
    (src/TMV_Vector.cpp:153-410, 412-600, 735-860), native branches. *)
From Coq Require Import ZArith Lia Bool List Ring.
From Verif Require Import Base Scal VecView VecOps VecOpsProofs.
Import ListNotations.
Open Scope Z_scope.

Section Scan.
Context {K : scal} {R : Type}.
Implicit Types (m : mem K) (v : view).
(** [better a b]: key a replaces key b as the current extreme; [<] for minima,
    [>] for maxima.  [key] is TMV_REAL for min/maxElement, TMV_ABS for
    min/maxAbsElement, TMV_ABS2 for min/maxAbs2Element. *)
Variables (better : R -> R -> bool) (key : K -> R).

(** The loop of FindMinElement / FindMaxElement, TMV_Vector.cpp:412-466 (the
    element found is kept). *)
Fixpoint scan_elem (n : nat) (p s i : Z) (best : K) (ibest : Z) m : K * Z :=
  match n with
  | O => (best, ibest)
  | S k => if better (key (m p)) (key best) then scan_elem k (p + s) s (i + 1) (m p) i m
           else scan_elem k (p + s) s (i + 1) best ibest m
  end.
Definition find_elem v m : K * Z :=
  let r := scan_elem (vn v - 1) (vptr v + vstep v) (vstep v) 1 (m (vptr v)) 0 m in
  (if vconj v then cj (fst r) else fst r, snd r).
(** The loop of FindMaxAbsElement and its three relatives,
    TMV_Vector.cpp:467-600 (the key found is kept). *)
Fixpoint scan_key (n : nat) (p s i : Z) (best : R) (ibest : Z) m : R * Z :=
  match n with
  | O => (best, ibest)
  | S k => let a := key (m p) in
           if better a best then scan_key k (p + s) s (i + 1) a i m
           else scan_key k (p + s) s (i + 1) best ibest m
  end.
Definition find_key v m : R * Z :=
  scan_key (vn v - 1) (vptr v + vstep v) (vstep v) 1 (key (m (vptr v))) 0 m.

(** doMinElement / doMaxElement, TMV_Vector.cpp:736-781: value and index. *)
Definition ext_elem v m : K * Z :=
  if vsize v =? 0 then (k0, -1)
  else if 0 <? vstep v then find_elem v m
  else if vstep v =? 0 then (m (vptr v), 0)
  else let r := find_elem (v_reverse v) m in (fst r, vsize v - 1 - snd r).
(** doMinAbsElement and relatives, TMV_Vector.cpp:783-872; [r0] is RT(0). *)
Definition ext_key (r0 : R) v m : R * Z :=
  if vsize v =? 0 then (r0, -1)
  else if 0 <? vstep v then find_key v m
  else if vstep v =? 0 then (key (m (vptr v)), 0)
  else let r := find_key (v_reverse v) m in (fst r, vsize v - 1 - snd r).

(** [better] is a strict order in which "not better" is transitive. *)
Definition ordering : Prop :=
  (forall a, better a a = false) /\
  (forall a b c, better a b = true -> better b c = true -> better a c = true) /\
  (forall a b c, better a b = false -> better b c = false -> better a c = false).

(** Index i of v attains the extreme, and does so first in memory order. *)
Definition extreme_at v m (i : Z) : Prop :=
  0 <= i < vsize v /\
  (forall j, 0 <= j < vsize v -> better (key (get m v j)) (key (get m v i)) = false) /\
  (forall j, 0 <= j < vsize v -> (if 0 <? vstep v then j < i else i < j) ->
     better (key (get m v i)) (key (get m v j)) = true).

Hypothesis HO : ordering.

(** Scan invariant: [best] sits at index ib among the first i addresses. *)
Definition scan_inv (p0 s : Z) m (i : Z) (best : K) (ib : Z) : Prop :=
  0 <= ib < i /\ best = m (p0 + ib * s) /\
  (forall j, 0 <= j < i -> better (key (m (p0 + j * s))) (key best) = false) /\
  (forall j, 0 <= j < ib -> better (key best) (key (m (p0 + j * s))) = true).

Lemma scan_elem_ok p0 s m n : forall i best ib,
  scan_inv p0 s m i best ib ->
  let r := scan_elem n (p0 + i * s) s i best ib m in
  scan_inv p0 s m (i + Z.of_nat n) (fst r) (snd r).
Proof.
  destruct HO as (irr & tr & ntr).
  induction n as [|n IH]; intros i best ib H; cbn [scan_elem].
  - rewrite Z.add_0_r. exact H.
  - destruct H as (Hib & Eb & Hall & Hfirst).
    replace (i + Z.of_nat (S n)) with (i + 1 + Z.of_nat n) by lia.
    replace (p0 + i * s + s) with (p0 + (i + 1) * s) by lia.
    destruct (better (key (m (p0 + i * s))) (key best)) eqn:E; apply IH.
    + split; [lia|]. split; [reflexivity|]. split.
      * intros j Hj. destruct (Z.eq_dec j i) as [->|]; [apply irr|].
        destruct (better (key (m (p0 + j * s))) (key (m (p0 + i * s)))) eqn:F; auto.
        specialize (Hall j ltac:(lia)). rewrite (tr _ _ _ F E) in Hall. discriminate.
      * intros j Hj. destruct (better (key (m (p0 + i * s))) (key (m (p0 + j * s)))) eqn:F; auto.
        rewrite (ntr _ _ _ F (Hall j ltac:(lia))) in E. discriminate.
    + split; [lia|]. split; [exact Eb|]. split; [|exact Hfirst].
      intros j Hj. destruct (Z.eq_dec j i) as [->|]; [exact E|]. apply Hall. lia.
Qed.

Lemma scan_key_elem p s m n : forall i best ib,
  scan_key n p s i (key best) ib m =
  (key (fst (scan_elem n p s i best ib m)), snd (scan_elem n p s i best ib m)).
Proof.
  revert p. induction n as [|n IH]; intros p i best ib; cbn [scan_key scan_elem]; [reflexivity|].
  cbv zeta. destruct (better (key (m p)) (key best)); apply IH.
Qed.

Hypothesis key_cj : forall y, key (cj y) = key y.

Lemma key_get m v i : key (get m v i) = key (m (addr v i)).
Proof. unfold get. destruct (vconj v); auto. Qed.

Lemma find_elem_ok v m : 0 < vstep v -> 0 < vsize v ->
  extreme_at v m (snd (find_elem v m)) /\ fst (find_elem v m) = get m v (snd (find_elem v m)).
Proof.
  intros Hs Hn. unfold find_elem. cbv zeta.
  pose proof (scan_elem_ok (vptr v) (vstep v) m (vn v - 1) 1 (m (vptr v)) 0) as P.
  cbv zeta in P. rewrite Z.mul_1_l in P.
  destruct (scan_elem (vn v - 1) (vptr v + vstep v) (vstep v) 1 (m (vptr v)) 0 m) as [e ix].
  cbn [fst snd] in *.
  destruct P as (H1 & H2 & H3 & H4).
  { split; [lia|]. split; [f_equal; lia|]. split.
    - intros j Hj. replace j with 0 by lia. rewrite Z.mul_0_l, Z.add_0_r. apply HO.
    - intros; lia. }
  unfold vn in *. replace (1 + Z.of_nat (Z.to_nat (vsize v) - 1)) with (vsize v) in * by lia.
  fold (addr v ix) in H2. split.
  - split; [lia|]. split.
    + intros j Hj. rewrite !key_get, <- H2. apply H3, Hj.
    + intros j Hj. rewrite (proj2 (Z.ltb_lt 0 _) Hs). intro. rewrite !key_get, <- H2. apply H4. lia.
  - unfold get. rewrite H2. reflexivity.
Qed.

Lemma ext_elem_ok v m : vstep v <> 0 -> 0 < vsize v ->
  extreme_at v m (snd (ext_elem v m)) /\ fst (ext_elem v m) = get m v (snd (ext_elem v m)).
Proof.
  intros Hs Hn. unfold ext_elem. rewrite (proj2 (Z.eqb_neq _ 0)) by lia.
  destruct (Z.ltb_spec 0 (vstep v)); [apply find_elem_ok; auto|].
  rewrite (proj2 (Z.eqb_neq _ 0) Hs). cbv zeta.
  destruct (find_elem_ok (v_reverse v) m) as [(H1 & H2 & H3) H4]; [cbn [v_reverse vstep]; lia|exact Hn|].
  destruct (find_elem (v_reverse v) m) as [e ix]. cbn [fst snd] in *. cbn [v_reverse vsize] in *.
  rewrite !get_reverse in *. split; [|exact H4].
  split; [lia|]. split.
  - intros j Hj. specialize (H2 (vsize v - 1 - j) ltac:(lia)). rewrite !get_reverse in H2.
    replace (vsize v - 1 - (vsize v - 1 - j)) with j in H2 by lia. exact H2.
  - intros j Hj. rewrite (proj2 (Z.ltb_ge 0 (vstep v))) by lia. intro Hlt.
    specialize (H3 (vsize v - 1 - j) ltac:(lia)).
    change (vstep (v_reverse v)) with (- vstep v) in H3.
    rewrite (proj2 (Z.ltb_lt 0 (- vstep v))) in H3 by lia. rewrite !get_reverse in H3.
    replace (vsize v - 1 - (vsize v - 1 - j)) with j in H3 by lia. apply H3. lia.
Qed.

Lemma find_key_elem v m :
  find_key v m = (key (fst (find_elem v m)), snd (find_elem v m)).
Proof.
  unfold find_key, find_elem. cbv zeta. rewrite scan_key_elem. cbn [fst snd].
  destruct (vconj v); [rewrite key_cj|]; reflexivity.
Qed.

Lemma ext_key_ok r0 v m : vstep v <> 0 -> 0 < vsize v ->
  extreme_at v m (snd (ext_key r0 v m)) /\
  fst (ext_key r0 v m) = key (get m v (snd (ext_key r0 v m))).
Proof.
  intros Hs Hn. destruct (ext_elem_ok v m Hs Hn) as [H1 H2].
  assert (E : ext_key r0 v m = (key (fst (ext_elem v m)), snd (ext_elem v m))).
  { unfold ext_key, ext_elem. rewrite (proj2 (Z.eqb_neq _ 0)) by lia.
    destruct (0 <? vstep v); [apply find_key_elem|].
    rewrite (proj2 (Z.eqb_neq _ 0) Hs). cbv zeta. rewrite find_key_elem. reflexivity. }
  rewrite E. cbn [fst snd]. rewrite <- H2. auto.
Qed.
End Scan.

(** ** Sums.  The result type is again an exact scalar type [R]. *)
Section Sum.
Context {K R : scal}.
Implicit Types (m : mem K) (v : view).
Add Ring RR : (kring R).

(** [for(i=n;i>0;--i,p+=s) sum += g( *p);] *)
Fixpoint sum_loop (g : K -> R) (n : nat) (p s : Z) m (acc : R) : R :=
  match n with
  | O => acc
  | S k => sum_loop g k (p + s) s m (kadd acc (g (m p)))
  end.
(** RT(size()) *)
Fixpoint kofnat (n : nat) : R := match n with O => k0 | S k => kadd k1 (kofnat k) end.

(** sumAbsElements (g = TMV_ABS), sumAbs2Elements (g = TMV_ABS2) and
    normSq(scale) (g x = TMV_NORM(scale*x)), TMV_Vector.cpp:157-185, 305-408.  For
    complex step-1 views normSq and sumAbs2Elements sum over the flattened words;
    as norm(x) = re^2+im^2 and abs2(x) = |re|+|im| this is modelled elementwise. *)
Definition sum_key (g : K -> R) v m : R :=
  if vsize v =? 0 then k0
  else if 0 <? vstep v then sum_loop g (vn v) (vptr v) (vstep v) m k0
  else if vstep v <? 0 then
    sum_loop g (vn v) (vptr (v_reverse v)) (- vstep v) m k0
  else kmul (kofnat (vn v)) (g (m (vptr v))).

(** ** Specification: the sum of f(0), ..., f(n-1). *)
Fixpoint big_sum (f : Z -> R) (n : nat) : R :=
  match n with O => k0 | S k => kadd (big_sum f k) (f (Z.of_nat k)) end.

Lemma big_sum_ext f g n : (forall i, 0 <= i < Z.of_nat n -> f i = g i) -> big_sum f n = big_sum g n.
Proof.
  induction n as [|n IH]; intro H; simpl; auto. rewrite IH, H; auto; intros; try apply H; lia.
Qed.
Lemma big_sum_shift f n : big_sum f (S n) = kadd (f 0) (big_sum (fun i => f (i + 1)) n).
Proof.
  induction n as [|n IH].
  - simpl. ring.
  - change (big_sum f (S (S n))) with (kadd (big_sum f (S n)) (f (Z.of_nat (S n)))). rewrite IH.
    simpl big_sum. replace (Z.of_nat (S n)) with (Z.of_nat n + 1) by lia. ring.
Qed.
Lemma big_sum_rev f n : big_sum (fun i => f (Z.of_nat n - 1 - i)) n = big_sum f n.
Proof.
  induction n as [|n IH]; [reflexivity|]. rewrite big_sum_shift.
  rewrite (big_sum_ext _ (fun i => f (Z.of_nat n - 1 - i))); [|intros; f_equal; lia].
  rewrite IH. simpl big_sum. replace (Z.of_nat (S n) - 1 - 0) with (Z.of_nat n) by lia. ring.
Qed.
Lemma big_sum_const x n : big_sum (fun _ => x) n = kmul (kofnat n) x.
Proof. induction n as [|n IH]; simpl; [ring|]. rewrite IH. ring. Qed.

Lemma sum_loop_ok g n p s m acc :
  sum_loop g n p s m acc = kadd acc (big_sum (fun i => g (m (p + i * s))) n).
Proof.
  revert p acc. induction n as [|n IH]; intros p acc; cbn [sum_loop].
  - simpl. ring.
  - rewrite IH, big_sum_shift. rewrite Z.mul_0_l, Z.add_0_r.
    rewrite (big_sum_ext (fun i => g (m (p + (i + 1) * s))) (fun i => g (m (p + s + i * s)))).
    + ring.
    + intros i Hi. f_equal. f_equal. lia.
Qed.

Lemma sum_raw_ok g v m : 0 <= vsize v ->
  sum_key g v m = big_sum (fun i => g (m (addr v i))) (vn v).
Proof.
  intro Hn. unfold sum_key, vn. destruct (Z.eqb_spec (vsize v) 0) as [->|Hne]; [reflexivity|].
  destruct (Z.ltb_spec 0 (vstep v)).
  { rewrite sum_loop_ok. unfold addr. ring. }
  destruct (Z.ltb_spec (vstep v) 0).
  - rewrite sum_loop_ok, <- big_sum_rev.
    transitivity (big_sum (fun i => g (m (addr v i))) (Z.to_nat (vsize v))); [|reflexivity].
    rewrite (big_sum_ext _ (fun i => g (m (addr v i)))); [ring|].
    intros i Hi. f_equal. f_equal. unfold addr. cbn [v_reverse vptr]. lia.
  - rewrite (big_sum_ext _ (fun _ => g (m (vptr v)))); [symmetry; apply big_sum_const|].
    intros i Hi. unfold addr. replace (vstep v) with 0 by lia. f_equal. f_equal. lia.
Qed.
End Sum.

(** sumElements, TMV_Vector.cpp:283-305: the raw sum, conjugated at the end, but
    not in the step-0 branch. *)
Definition sum_elements {K : scal} (v : view) (m : mem K) : K :=
  if vsize v =? 0 then k0
  else
    let raw := sum_key (R := K) (fun y => y) v m in
    if vstep v =? 0 then raw else if vconj v then cj raw else raw.

Lemma cj_big_sum {K : scal} (f : Z -> K) n : cj (big_sum f n) = big_sum (fun i => cj (f i)) n.
Proof. induction n as [|n IH]; simpl; [apply cj_0|]. rewrite cj_add, IH. reflexivity. Qed.

Lemma sum_elements_ok {K : scal} v (m : mem K) : 0 <= vsize v -> (vstep v <> 0 \/ vconj v = false) ->
  sum_elements v m = big_sum (get m v) (vn v).
Proof.
  intros Hn Hs. unfold sum_elements. destruct (Z.eqb_spec (vsize v) 0) as [E|E].
  { unfold vn. rewrite E. reflexivity. }
  cbv zeta. rewrite sum_raw_ok by auto.
  destruct (vconj v) eqn:C.
  - rewrite (proj2 (Z.eqb_neq _ 0)) by (destruct Hs; [auto|discriminate]).
    rewrite cj_big_sum. apply big_sum_ext. intros. unfold get. rewrite C. reflexivity.
  - assert (X : big_sum (fun i => m (addr v i)) (vn v) = big_sum (get m v) (vn v))
      by (apply big_sum_ext; intros; unfold get; rewrite C; reflexivity).
    destruct (vstep v =? 0); exact X.
Qed.

Lemma sum_key_ok {K R : scal} (g : K -> R) v (m : mem K) : 0 <= vsize v ->
  (forall y, g (cj y) = g y) ->
  sum_key g v m = big_sum (fun i => g (get m v i)) (vn v).
Proof.
  intros Hn Hg. rewrite sum_raw_ok by auto. apply big_sum_ext. intros. unfold get.
  destruct (vconj v); [rewrite Hg|]; reflexivity.
Qed.
