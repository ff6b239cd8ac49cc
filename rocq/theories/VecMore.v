(** Swap(v1,v2), operator==, and the elementwise product (src/TMV_Vector.cpp,
    src/TMV_MultXV.cpp). *)
From Coq Require Import ZArith Lia Bool List Ring.
From Verif Require Import Base Scal VecView VecOps VecOpsProofs VecArithProofs.
Import ListNotations.
Open Scope Z_scope.

Section M.
Context {K : scal}.
Implicit Types (m : mem K) (v x y z : view).
Add Ring KR : (kring K).

(** DoSwap(v1,v2), TMV_Vector.cpp:1395-1428: conjswap when v1 is conjugated,
    TMV_SWAP otherwise. *)
Fixpoint swap_loop (c : bool) (n : nat) (p1 s1 p2 s2 : Z) m : mem K :=
  match n with
  | O => m
  | S k =>
    let t := m p1 in
    let m := set m p1 (if c then cj (m p2) else m p2) in
    let m := set m p2 (if c then cj t else t) in
    swap_loop c k (p1 + s1) s1 (p2 + s2) s2 m
  end.
Definition do_swap_vv v1 v2 m : mem K :=
  swap_loop (vconj v1) (vn v2) (vptr v1) (vstep v1) (vptr v2) (vstep v2) m.
(** Swap(v1,v2), TMV_Vector.cpp:1479-1495.  The first test is a TMVAssert2. *)
Fixpoint swap_vv_fuel (fuel : nat) v1 v2 m : option (outcome (mem K)) :=
  match fuel with
  | O => None
  | S k =>
    if vsize v1 =? vsize v2 then
      if (0 <? vsize v1) && negb (same_as v2 v1) then
        if should_reverse (vstep v1) (vstep v2)
        then swap_vv_fuel k (v_reverse v1) (v_reverse v2) m
        else if vconj v2 then Some (Ok (do_swap_vv (v_conjugate v1) (v_conjugate v2) m))
        else Some (Ok (do_swap_vv v1 v2 m))
      else Some (Ok m)
    else Some (Throw FailedAssert)
  end.
Definition swap_vv v1 v2 m := swap_vv_fuel 2 v1 v2 m.

(** operator==(v1,v2), TMV_Vector.cpp:1500-1532. *)
Fixpoint eq_loop (c : bool) (n : nat) (p1 s1 p2 s2 : Z) m : bool :=
  match n with
  | O => true
  | S k => if keqb (m p1) (if c then cj (m p2) else m p2)
           then eq_loop c k (p1 + s1) s1 (p2 + s2) s2 m else false
  end.
Definition vec_eq v1 v2 m : bool :=
  if negb (vsize v1 =? vsize v2) then false
  else if same_as v2 v1 then true
  else eq_loop (negb (Bool.eqb (vconj v1) (vconj v2))) (vn v2)
         (vptr v1) (vstep v1) (vptr v2) (vstep v2) m.

(** ** Swap *)
Lemma swap_loop_ok c n : forall p1 s1 p2 s2 m, s1 <> 0 -> s2 <> 0 ->
  (forall i j, 0 <= i < Z.of_nat n -> 0 <= j < Z.of_nat n -> p1 + i * s1 <> p2 + j * s2) ->
  let m' := swap_loop c n p1 s1 p2 s2 m in
  (forall i, 0 <= i < Z.of_nat n ->
     m' (p1 + i * s1) = (if c then cj (m (p2 + i * s2)) else m (p2 + i * s2)) /\
     m' (p2 + i * s2) = (if c then cj (m (p1 + i * s1)) else m (p1 + i * s1))) /\
  (forall a, (forall i, 0 <= i < Z.of_nat n -> a <> p1 + i * s1 /\ a <> p2 + i * s2) -> m' a = m a).
Proof.
  induction n as [|n IH]; intros p1 s1 p2 s2 m H1 H2 D; cbv zeta.
  - split; [intros; lia|reflexivity].
  - cbn [swap_loop]. cbv zeta. set (ma := VecOps.set _ _ _).
    destruct (IH (p1 + s1) s1 (p2 + s2) s2 ma H1 H2) as [A B].
    { intros i j Hi Hj E. apply (D (i + 1) (j + 1)); lia. }
    cbv zeta in A, B.
    pose proof (D 0 0 ltac:(lia) ltac:(lia)) as D0.
    assert (M1 : ma p1 = if c then cj (m p2) else m p2).
    { unfold ma. rewrite set_neq by lia. apply set_eq. }
    assert (M2 : ma p2 = if c then cj (m p1) else m p1) by (unfold ma; apply set_eq).
    assert (Mo : forall a, a <> p1 -> a <> p2 -> ma a = m a).
    { intros a Ha Hb. unfold ma. rewrite !set_neq; auto. }
    split.
    + intros i Hi. destruct (Z.eq_dec i 0) as [->|Hi0].
      * rewrite !Z.mul_0_l, !Z.add_0_r.
        split; rewrite B; auto; intros j Hj; split; intro E.
        -- assert ((j + 1) * s1 = 0) by lia. nia.
        -- apply (D 0 (j + 1)); lia.
        -- apply (D (j + 1) 0); lia.
        -- assert ((j + 1) * s2 = 0) by lia. nia.
      * specialize (A (i - 1) ltac:(lia)).
        replace (p1 + s1 + (i - 1) * s1) with (p1 + i * s1) in A by lia.
        replace (p2 + s2 + (i - 1) * s2) with (p2 + i * s2) in A by lia.
        rewrite (Mo (p1 + i * s1)), (Mo (p2 + i * s2)) in A; [exact A| | | |];
          intro E; try (assert (i * s1 = 0) by lia; nia); try (assert (i * s2 = 0) by lia; nia).
        -- apply (D 0 i); lia.
        -- apply (D i 0); lia.
    + intros a Ha. rewrite B.
      * apply Mo; specialize (Ha 0 ltac:(lia)); lia.
      * intros i Hi. specialize (Ha (i + 1) ltac:(lia)). lia.
Qed.

Definition exchanged v1 v2 m m' : Prop :=
  (forall i, 0 <= i < vsize v1 -> get m' v1 i = get m v2 i /\ get m' v2 i = get m v1 i) /\
  (forall a, ~ in_view v1 a -> ~ in_view v2 a -> m' a = m a).

Lemma do_swap_vv_ok v1 v2 m : vstep v1 <> 0 -> vstep v2 <> 0 -> vsize v1 = vsize v2 ->
  disjoint v1 v2 -> vconj v2 = false -> exchanged v1 v2 m (do_swap_vv v1 v2 m).
Proof.
  intros H1 H2 Hn D C. unfold do_swap_vv.
  destruct (swap_loop_ok (vconj v1) (vn v2) (vptr v1) (vstep v1) (vptr v2) (vstep v2) m H1 H2) as [A B].
  { unfold vn. intros i j Hi Hj E. apply (D (addr v1 i)); [exists i|exists j]; split; auto; lia. }
  cbv zeta in A, B. unfold vn in *. split.
  - intros i Hi. specialize (A i ltac:(lia)). fold (addr v1 i) (addr v2 i) in A.
    unfold get. rewrite C. destruct A as [A1 A2]. rewrite A1, A2. destruct (vconj v1); auto.
    rewrite cj_cj. auto.
  - intros a Ha Hb. apply B. intros i Hi. split; intro E; [apply Ha|apply Hb]; exists i; split; auto; lia.
Qed.

Lemma swap_vv_fwd v1 v2 m : vstep v1 <> 0 -> vstep v2 <> 0 -> vsize v1 = vsize v2 ->
  disjoint v1 v2 -> typed (K:=K) v1 -> typed (K:=K) v2 ->
  exchanged v1 v2 m
    (if vconj v2 then do_swap_vv (v_conjugate v1) (v_conjugate v2) m else do_swap_vv v1 v2 m).
Proof.
  intros H1 H2 Hn D T1 T2. destruct (vconj v2) eqn:C; [|apply do_swap_vv_ok; auto].
  destruct (do_swap_vv_ok (v_conjugate v1) (v_conjugate v2) m) as [A B]; auto.
  { apply (conj_flag_off (K:=K)); auto. }
  split; [|exact B]. intros i Hi. destruct (A i Hi) as [A1 A2].
  rewrite !get_conj in A1, A2 by auto. 
  split; [rewrite <- (cj_cj K (get _ v1 i)), A1|rewrite <- (cj_cj K (get _ v2 i)), A2]; apply cj_cj.
Qed.

Lemma swap_vv_ok v1 v2 m : vstep v1 <> 0 -> vstep v2 <> 0 -> vsize v1 = vsize v2 ->
  disjoint v1 v2 -> typed (K:=K) v1 -> typed (K:=K) v2 ->
  exists m', swap_vv v1 v2 m = Some (Ok m') /\ exchanged v1 v2 m m'.
Proof.
  intros H1 H2 Hn D T1 T2. unfold swap_vv. cbn [swap_vv_fuel].
  rewrite (proj2 (Z.eqb_eq _ _) Hn).
  destruct (Z.ltb_spec 0 (vsize v1)) as [Hp|Hp]; cbn [andb].
  2:{ exists m. split; [reflexivity|]. split; [intros; lia|auto]. }
  destruct (same_as v2 v1) eqn:ES; cbn [negb].
  { exfalso. apply (D (addr v1 0)); exists 0; split; try lia. symmetry. apply same_as_addr, ES. }
  destruct (should_reverse (vstep v1) (vstep v2)) eqn:HR.
  -    assert (Dr : disjoint (v_reverse v1) (v_reverse v2)).
    { intros a Ha Hb. apply (D a); apply in_view_reverse; assumption. }
    destruct (same_as (v_reverse v2) (v_reverse v1)) eqn:ES'.
    { exfalso. apply (Dr (addr (v_reverse v1) 0)); exists 0; (split; [cbn [v_reverse vsize]; lia|]); auto.
      symmetry. apply same_as_addr, ES'. }
    rewrite !step_reverse, (should_reverse_once _ _ HR).
    change (vsize (v_reverse v1)) with (vsize v1). change (vsize (v_reverse v2)) with (vsize v2).
    rewrite (proj2 (Z.eqb_eq _ _) Hn), (proj2 (Z.ltb_lt _ _) Hp). cbn [andb negb].
    change (vconj (v_reverse v2)) with (vconj v2).
    pose proof (swap_vv_fwd (v_reverse v1) (v_reverse v2) m) as F.
    change (vconj (v_reverse v2)) with (vconj v2) in F.
    exists (if vconj v2 then do_swap_vv (v_conjugate (v_reverse v1)) (v_conjugate (v_reverse v2)) m
            else do_swap_vv (v_reverse v1) (v_reverse v2) m).
    split; [destruct (vconj v2); reflexivity|].
    destruct F as [A B]; auto; try (rewrite step_reverse; lia).
    split.
    + intros i Hi. specialize (A (vsize v1 - 1 - i) ltac:(cbn [v_reverse vsize]; lia)).
      rewrite !get_reverse, Hn in A. replace (vsize v2 - 1 - (vsize v2 - 1 - i)) with i in A by lia. exact A.
    + intros a Ha Hb. apply B; intro X; [apply Ha|apply Hb]; apply in_view_reverse; exact X.
  - exists (if vconj v2 then do_swap_vv (v_conjugate v1) (v_conjugate v2) m else do_swap_vv v1 v2 m).
    split; [destruct (vconj v2); reflexivity|]. apply swap_vv_fwd; auto.
Qed.

(** ** operator== *)
Lemma eq_loop_ok c n : forall p1 s1 p2 s2 m,
  eq_loop c n p1 s1 p2 s2 m = true <->
  forall i, 0 <= i < Z.of_nat n -> m (p1 + i * s1) = if c then cj (m (p2 + i * s2)) else m (p2 + i * s2).
Proof.
  induction n as [|n IH]; intros p1 s1 p2 s2 m; cbn [eq_loop].
  - split; [intros; lia|reflexivity].
  - destruct (keqb (m p1) (if c then cj (m p2) else m p2)) eqn:E.
    + rewrite IH. apply (keqb_eq K) in E. split.
      * intros H i Hi. destruct (Z.eq_dec i 0) as [->|]; [rewrite !Z.mul_0_l, !Z.add_0_r; exact E|].
        specialize (H (i - 1) ltac:(lia)).
        replace (p1 + s1 + (i - 1) * s1) with (p1 + i * s1) in H by lia.
        replace (p2 + s2 + (i - 1) * s2) with (p2 + i * s2) in H by lia. exact H.
      * intros H i Hi. specialize (H (i + 1) ltac:(lia)).
        replace (p1 + s1 + i * s1) with (p1 + (i + 1) * s1) by lia.
        replace (p2 + s2 + i * s2) with (p2 + (i + 1) * s2) by lia. exact H.
    + split; [discriminate|]. intro H. specialize (H 0 ltac:(lia)).
      rewrite !Z.mul_0_l, !Z.add_0_r in H. apply (keqb_eq K) in H. congruence.
Qed.

Lemma vec_eq_ok v1 v2 m : 0 <= vsize v1 ->
  (vec_eq v1 v2 m = true <->
   vsize v1 = vsize v2 /\ forall i, 0 <= i < vsize v1 -> get m v1 i = get m v2 i).
Proof.
  intro Hn. unfold vec_eq. destruct (Z.eqb_spec (vsize v1) (vsize v2)) as [E|E]; cbn [negb].
  2:{ split; [discriminate|]. intros [? _]. contradiction. }
  destruct (same_as v2 v1) eqn:ES.
  { split; [|reflexivity]. intros _. split; auto. intros i Hi. unfold get.
    rewrite (same_as_addr _ _ i ES). destruct (same_as_eq _ _ ES) as (_ & _ & _ & ->). reflexivity. }
  rewrite eq_loop_ok. unfold vn. rewrite Z2Nat.id by lia. split.
  - intro H. split; auto. intros i Hi. specialize (H i ltac:(lia)). fold (addr v1 i) (addr v2 i) in H.
    unfold get. rewrite H. destruct (vconj v1), (vconj v2); cbn; rewrite ?cj_cj; auto.
  - intros [_ H] i Hi. specialize (H i ltac:(lia)). fold (addr v1 i) (addr v2 i).
    unfold get in H. destruct (vconj v1), (vconj v2); cbn; auto.
    + rewrite <- (cj_cj K (m (addr v1 i))), H. apply cj_cj.
    + rewrite <- H, cj_cj. reflexivity.
Qed.

(** ** ElemMultVV *)

(** DoElemMultVV<add,cx,cy>, TMV_MultXV.cpp:318-414.  The unrolled step-1 loop
    performs the same statements in the same order and is modelled by the plain
    one. *)
Fixpoint elem_loop (f : K -> K -> K -> K) (n : nat) (px sx py sy pz sz : Z) m : mem K :=
  match n with
  | O => m
  | S k => elem_loop f k (px + sx) sx (py + sy) sy (pz + sz) sz (set m pz (f (m px) (m py) (m pz)))
  end.
Definition do_elem_mult (add : bool) (alpha : K) x y z m : mem K :=
  let c := fun (v : view) (a : K) => if vconj v then cj a else a in
  let p := fun a b : K => if keqb alpha k1 then kmul (c x a) (c y b)
                          else kmul (kmul alpha (c x a)) (c y b) in
  elem_loop (fun a b d => if add then kadd d (p a b) else p a b) (vn z)
    (vptr x) (vstep x) (vptr y) (vstep y) (vptr z) (vstep z) m.
(** The reversal test, TMV_MultXV.cpp:440-445. *)
Definition elem_rev (sx sy sz : Z) : bool :=
  ((sz =? -1) && negb ((sx =? 1) && (sy =? 1)))
  || (negb (sz =? 1) && ((sx =? -1) || (negb (sx =? 1) && (sy =? -1))))
  || ((sz <? 0) && negb ((sx =? 1) || (sy =? 1))).
(** ElemMultVV<add>(alpha,x,y,z), TMV_MultXV.cpp:428-505.  [tx], [ty] are where
    the temporary copies of x and y go. *)
Definition vec_at (tmp n : Z) : view := mkView tmp n 1 false (kcplx K).
Fixpoint elem_mult_fuel (fuel : nat) (tx ty : Z) (add : bool) (alpha : K) x y z m : option (mem K) :=
  match fuel with
  | O => None
  | S k =>
    if (0 <? vsize z) && negb (keqb alpha k0) then
      if vconj z then
        elem_mult_fuel k tx ty add (cj alpha) (v_conjugate x) (v_conjugate y) (v_conjugate z) m
      else if elem_rev (vstep x) (vstep y) (vstep z) then
        elem_mult_fuel k tx ty add alpha (v_reverse x) (v_reverse y) (v_reverse z) m
      else if same_storage x z && (vstep z <? vstep x) then
        if add then
          obind (copy x (vec_at tx (vsize x)) m) (fun m =>
          elem_mult_fuel k tx ty add alpha (vec_at tx (vsize x)) y z m)
        else if same_storage y z then
          obind (copy x (vec_at tx (vsize x)) m) (fun m =>
          obind (copy y z m) (fun m =>
          elem_mult_fuel k tx ty false alpha (vec_at tx (vsize x)) z z m))
        else
          obind (copy x z m) (fun m => elem_mult_fuel k tx ty false alpha z y z m)
      else if same_storage y z && (vstep z <? vstep y) then
        if add then
          obind (copy y (vec_at ty (vsize y)) m) (fun m =>
          elem_mult_fuel k tx ty add alpha x (vec_at ty (vsize y)) z m)
        else if same_storage x z then
          obind (copy y (vec_at ty (vsize y)) m) (fun m =>
          obind (copy x z m) (fun m =>
          elem_mult_fuel k tx ty false alpha z (vec_at ty (vsize y)) z m))
        else
          obind (copy y z m) (fun m => elem_mult_fuel k tx ty false alpha x z z m)
      else Some (do_elem_mult add (if kisreal alpha then kre alpha else alpha) x y z m)
    else Some m
  end.
Definition elem_mult tx ty add alpha x y z m := elem_mult_fuel 6 tx ty add alpha x y z m.

Lemma elem_loop_spec f n : forall px sx py sy pz sz m, sz <> 0 ->
  (forall i j, 0 <= i < Z.of_nat n -> 0 <= j < Z.of_nat n -> i < j -> pz + i * sz <> px + j * sx) ->
  (forall i j, 0 <= i < Z.of_nat n -> 0 <= j < Z.of_nat n -> i < j -> pz + i * sz <> py + j * sy) ->
  (forall i, 0 <= i < Z.of_nat n ->
     elem_loop f n px sx py sy pz sz m (pz + i * sz) =
     f (m (px + i * sx)) (m (py + i * sy)) (m (pz + i * sz))) /\
  (forall a, (forall i, 0 <= i < Z.of_nat n -> a <> pz + i * sz) ->
     elem_loop f n px sx py sy pz sz m a = m a).
Proof.
  induction n as [|n IH]; intros px sx py sy pz sz m Hs Hx Hy.
  - split; [intros; lia|reflexivity].
  - cbn [elem_loop].
    destruct (IH (px + sx) sx (py + sy) sy (pz + sz) sz (set m pz (f (m px) (m py) (m pz))) Hs) as [H1 H2].
    { intros i j Hi Hj Hij E. apply (Hx (i + 1) (j + 1)); lia. }
    { intros i j Hi Hj Hij E. apply (Hy (i + 1) (j + 1)); lia. }
    split.
    + intros i Hi. destruct (Z.eq_dec i 0) as [->|Hi0].
      * rewrite !Z.mul_0_l, !Z.add_0_r. rewrite H2.
        -- apply set_eq.
        -- intros j Hj E. assert ((j + 1) * sz = 0) by lia. nia.
      * replace (pz + i * sz) with (pz + sz + (i - 1) * sz) by lia.
        replace (px + i * sx) with (px + sx + (i - 1) * sx) by lia.
        replace (py + i * sy) with (py + sy + (i - 1) * sy) by lia.
        rewrite H1 by lia. f_equal; apply set_neq.
        -- intro E. apply (Hx 0 i); lia.
        -- intro E. apply (Hy 0 i); lia.
        -- intro E. assert (i * sz = 0) by lia. nia.
    + intros a Ha. rewrite H2.
      * apply set_neq. specialize (Ha 0 ltac:(lia)). lia.
      * intros j Hj E. apply (Ha (j + 1) ltac:(lia)). lia.
Qed.

Definition elem_result (add : bool) (alpha : K) x y z m (i : Z) : K :=
  let p := kmul alpha (kmul (get m x i) (get m y i)) in
  if add then kadd (get m z i) p else p.

Lemma do_elem_mult_ok add alpha x y z m : vstep z <> 0 -> vsize x = vsize z -> vsize y = vsize z ->
  safe x z -> safe y z -> vconj z = false ->
  becomes z m (do_elem_mult add alpha x y z m) (elem_result add alpha x y z m).
Proof.
  intros Hs Nx Ny Sx Sy C. unfold do_elem_mult. cbv zeta.
  match goal with |- becomes _ _ (elem_loop ?f _ _ _ _ _ _ _ _) _ =>
    destruct (elem_loop_spec f (vn z) (vptr x) (vstep x) (vptr y) (vstep y) (vptr z) (vstep z) m Hs) as [H1 H2] end.
  { unfold vn. intros i j Hi Hj Hij. apply (Sx i j); lia. }
  { unfold vn. intros i j Hi Hj Hij. apply (Sy i j); lia. }
  unfold vn in *. split.
  - intros i Hi. unfold get at 1. rewrite C. unfold addr at 1. rewrite H1 by lia.
    fold (addr x i) (addr y i) (addr z i). unfold elem_result. cbv zeta.
    unfold get at 1. rewrite C. fold (get m x i) (get m y i).
    destruct (keqb alpha k1) eqn:E; [apply (keqb_eq K) in E; rewrite E|]; destruct add; unfold get; rewrite ?C; ring.
  - intros a Ha. apply H2. intros i Hi E. apply Ha. exists i. split; auto. lia.
Qed.

Lemma elem_rev_once sx sy sz : elem_rev sx sy sz = true -> elem_rev (- sx) (- sy) (- sz) = false.
Proof.
  unfold elem_rev.
  destruct (Z.eqb_spec sz (-1)), (Z.eqb_spec sz 1), (Z.eqb_spec sx 1), (Z.eqb_spec sx (-1)),
    (Z.eqb_spec sy 1), (Z.eqb_spec sy (-1)), (Z.ltb_spec sz 0); cbn [negb andb orb]; try lia; intro H; try discriminate H;
  destruct (Z.eqb_spec (-sz) (-1)), (Z.eqb_spec (-sz) 1), (Z.eqb_spec (-sx) 1), (Z.eqb_spec (-sx) (-1)),
    (Z.eqb_spec (-sy) 1), (Z.eqb_spec (-sy) (-1)), (Z.ltb_spec (-sz) 0); cbn [negb andb orb]; try reflexivity; lia.
Qed.

Lemma alias_ok_reverse v w : vsize v = vsize w -> alias_ok v w -> alias_ok (v_reverse v) (v_reverse w).
Proof.
  intros Hn [D|[E1 E2]].
  - left. intros a Ha Hb. apply (D a); apply in_view_reverse; assumption.
  - right. cbn [v_reverse vptr vstep]. rewrite E1, E2, Hn. auto.
Qed.
Lemma alias_not_wider v w : 0 < vsize v -> vsize v = vsize w -> alias_ok v w ->
  same_storage v w && (vstep w <? vstep v) = false.
Proof.
  intros Hp Hn [D|[E1 E2]].
  - unfold same_storage. destruct (Z.eqb_spec (vptr v) (vptr w)) as [E|]; [|reflexivity].
    exfalso. apply (D (addr v 0)); exists 0; split; auto; try lia. unfold addr. lia.
  - rewrite E2, Z.ltb_irrefl. apply andb_false_r.
Qed.

(** One call on views that need neither conjugating nor reversing. *)
Lemma elem_mult_base k tx ty add alpha x y z m :
  0 < vsize z -> alpha <> k0 -> vstep z <> 0 -> vsize x = vsize z -> vsize y = vsize z ->
  alias_ok x z -> alias_ok y z -> vconj z = false -> elem_rev (vstep x) (vstep y) (vstep z) = false ->
  exists m', elem_mult_fuel (S k) tx ty add alpha x y z m = Some m' /\
    becomes z m m' (elem_result add alpha x y z m).
Proof.
  intros Hp Ha Hs Nx Ny Ax Ay C R. cbn [elem_mult_fuel].
  rewrite (proj2 (Z.ltb_lt _ _) Hp). destruct (keqb alpha k0) eqn:E0.
  { apply (keqb_eq K) in E0. contradiction. }
  cbn [andb negb]. rewrite C, R.
  rewrite (alias_not_wider x z), (alias_not_wider y z) by (auto; lia).
  eexists. split; [reflexivity|].
  replace (if kisreal alpha then kre alpha else alpha) with alpha.
  - apply do_elem_mult_ok; auto; apply alias_ok_safe; auto.
  - destruct (kisreal alpha) eqn:E; auto. symmetry. apply (kre_real K), E.
Qed.

Lemma elem_mult_nc k tx ty add alpha x y z m :
  0 < vsize z -> alpha <> k0 -> vstep z <> 0 -> vsize x = vsize z -> vsize y = vsize z ->
  alias_ok x z -> alias_ok y z -> vconj z = false ->
  exists m', elem_mult_fuel (S (S k)) tx ty add alpha x y z m = Some m' /\
    becomes z m m' (elem_result add alpha x y z m).
Proof.
  intros Hp Ha Hs Nx Ny Ax Ay C.
  destruct (elem_rev (vstep x) (vstep y) (vstep z)) eqn:R; [|apply elem_mult_base; auto].
  destruct (elem_mult_base k tx ty add alpha (v_reverse x) (v_reverse y) (v_reverse z) m) as [m' [E B]]; auto.
  { rewrite step_reverse. lia. }
  1,2: apply alias_ok_reverse; auto.
  { rewrite !step_reverse. apply elem_rev_once, R. }
  exists m'. split.
  - revert E. generalize (S k). intros k' E. cbn [elem_mult_fuel]. rewrite (proj2 (Z.ltb_lt _ _) Hp). destruct (keqb alpha k0) eqn:E0.
    { apply (keqb_eq K) in E0. contradiction. }
    cbn [andb negb]. rewrite C, R. exact E.
  - apply becomes_reverse. revert B. apply becomes_ext. intros i Hi. cbn [v_reverse vsize] in Hi.
    unfold elem_result. cbv zeta. rewrite !get_reverse, Nx, Ny. reflexivity.
Qed.

Lemma cj_nonzero (a : K) : a <> k0 -> cj a <> k0.
Proof. intros H E. apply H. rewrite <- (cj_cj K a), E. apply cj_0. Qed.

Lemma elem_mult_ok tx ty add alpha x y z m :
  alpha <> k0 -> vstep z <> 0 -> vsize x = vsize z -> vsize y = vsize z ->
  typed (K:=K) x -> typed (K:=K) y -> typed (K:=K) z ->
  alias_ok x z -> alias_ok y z ->
  exists m', elem_mult tx ty add alpha x y z m = Some m' /\
    becomes z m m' (elem_result add alpha x y z m).
Proof.
  intros Ha Hs Nx Ny Tx Ty Tz Ax Ay. unfold elem_mult.
  destruct (Z.ltb_spec 0 (vsize z)) as [Hp|Hp].
  2:{ exists m. cbn [elem_mult_fuel]. rewrite (proj2 (Z.ltb_ge _ _) Hp). split; [reflexivity|].
      apply empty_becomes. lia. }
  destruct (vconj z) eqn:C; [|apply elem_mult_nc; auto].
  destruct (elem_mult_nc 3 tx ty add (cj alpha) (v_conjugate x) (v_conjugate y) (v_conjugate z) m)
    as [m' [E B]]; auto.
  { apply cj_nonzero, Ha. }
  { apply (conj_flag_off (K:=K)); auto. }
  exists m'. split.
  - revert E. generalize 5%nat. intros k' E. cbn [elem_mult_fuel]. rewrite (proj2 (Z.ltb_lt _ _) Hp). destruct (keqb alpha k0) eqn:E0.
    { apply (keqb_eq K) in E0. contradiction. }
    cbn [andb negb]. rewrite C. exact E.
  - apply becomes_conj; auto. revert B. apply becomes_ext. intros i Hi.
    unfold elem_result. cbv zeta. rewrite !get_conj by auto.
    destruct add; rewrite ?cj_add, !cj_mul; reflexivity.
Qed.

(** With add=true the guard alpha != 0 is right. *)
Lemma elem_mult_add_ok tx ty alpha x y z m :
  vstep z <> 0 -> vsize x = vsize z -> vsize y = vsize z ->
  typed (K:=K) x -> typed (K:=K) y -> typed (K:=K) z ->
  alias_ok x z -> alias_ok y z ->
  exists m', elem_mult tx ty true alpha x y z m = Some m' /\
    becomes z m m' (fun i => kadd (get m z i) (kmul alpha (kmul (get m x i) (get m y i)))).
Proof.
  intros Hs Nx Ny Tx Ty Tz Ax Ay. destruct (keqb alpha k0) eqn:E0.
  - exists m. unfold elem_mult. cbn [elem_mult_fuel]. rewrite E0. cbn [negb]. rewrite andb_false_r.
    split; [reflexivity|]. apply (keqb_eq K) in E0. subst alpha. split; [intros; ring|].
    intros a _. reflexivity.
  - apply (elem_mult_ok tx ty true alpha x y z m); auto. intro E. apply (keqb_eq K) in E. congruence.
Qed.
End M.
