(** Proofs about VecOps.v. *)
From Coq Require Import ZArith Lia Bool List Ring.
From Verif Require Import Base Scal VecView VecOps.
Import ListNotations.
Open Scope Z_scope.

Section P.
Context {K : scal}.
Implicit Types (m : mem K) (v : view) (x : K).

Add Ring KR : (kring K).

Lemma set_eq m a x : set m a x a = x.
Proof. unfold set. rewrite Z.eqb_refl. reflexivity. Qed.
Lemma set_neq m a b x : b <> a -> set m a x b = m b.
Proof. unfold set. intro H. rewrite (proj2 (Z.eqb_neq b a) H). reflexivity. Qed.

Lemma map_loop_spec f n p s m : s <> 0 ->
  (forall i, 0 <= i < Z.of_nat n -> map_loop f n p s m (p + i * s) = f (m (p + i * s))) /\
  (forall a, (forall i, 0 <= i < Z.of_nat n -> a <> p + i * s) -> map_loop f n p s m a = m a).
Proof.
  intro Hs. revert p m. induction n as [|n IH]; intros p m.
  - split; [intros; lia|reflexivity].
  - cbn [map_loop]. destruct (IH (p + s) (set m p (f (m p)))) as [H1 H2]. split.
    + intros i Hi. destruct (Z.eq_dec i 0) as [->|Hi0].
      * replace (p + 0 * s) with p by lia. rewrite H2.
        -- apply set_eq.
        -- intros j Hj E. assert ((j + 1) * s = 0) by lia. nia.
      * replace (p + i * s) with (p + s + (i - 1) * s) by lia.
        rewrite H1 by lia. f_equal. apply set_neq. intro E. assert (i * s = 0) by lia. nia.
    + intros a Ha. rewrite H2.
      * apply set_neq. specialize (Ha 0 ltac:(lia)). lia.
      * intros j Hj E. apply (Ha (j + 1) ltac:(lia)). lia.
Qed.

Lemma zip_loop_spec f n p1 s1 p2 s2 m : s2 <> 0 ->
  (forall i j, 0 <= i < Z.of_nat n -> 0 <= j < Z.of_nat n -> i < j -> p2 + i * s2 <> p1 + j * s1) ->
  (forall i, 0 <= i < Z.of_nat n ->
     zip_loop f n p1 s1 p2 s2 m (p2 + i * s2) = f (m (p1 + i * s1)) (m (p2 + i * s2))) /\
  (forall a, (forall i, 0 <= i < Z.of_nat n -> a <> p2 + i * s2) ->
     zip_loop f n p1 s1 p2 s2 m a = m a).
Proof.
  intro Hs. revert p1 p2 m. induction n as [|n IH]; intros p1 p2 m Hc.
  - split; [intros; lia|reflexivity].
  - cbn [zip_loop].
    destruct (IH (p1 + s1) (p2 + s2) (set m p2 (f (m p1) (m p2)))) as [H1 H2].
    { intros i j Hi Hj Hij E. apply (Hc (i + 1) (j + 1)); lia. }
    split.
    + intros i Hi. destruct (Z.eq_dec i 0) as [->|Hi0].
      * replace (p2 + 0 * s2) with p2 by lia. replace (p1 + 0 * s1) with p1 by lia.
        rewrite H2.
        -- apply set_eq.
        -- intros j Hj E. assert ((j + 1) * s2 = 0) by lia. nia.
      * replace (p2 + i * s2) with (p2 + s2 + (i - 1) * s2) by lia.
        replace (p1 + i * s1) with (p1 + s1 + (i - 1) * s1) by lia.
        rewrite H1 by lia. f_equal; apply set_neq.
        -- intro E. apply (Hc 0 i); lia.
        -- intro E. assert (i * s2 = 0) by lia. nia.
    + intros a Ha. rewrite H2.
      * apply set_neq. specialize (Ha 0 ltac:(lia)). lia.
      * intros j Hj E. apply (Ha (j + 1) ltac:(lia)). lia.
Qed.

(** The unrolled loops are the plain ones. *)
Lemma map_loop_app f n1 n2 p s m :
  map_loop f (n1 + n2) p s m = map_loop f n2 (p + Z.of_nat n1 * s) s (map_loop f n1 p s m).
Proof.
  revert p m. induction n1 as [|n1 IH]; intros p m; cbn [plus map_loop].
  - f_equal. lia.
  - rewrite IH. f_equal. lia.
Qed.
Lemma map_loop4_eq f n1 p m : map_loop4 f n1 p m = map_loop f (4 * n1) p 1 m.
Proof.
  revert p m. induction n1 as [|n1 IH]; intros p m; [reflexivity|].
  replace (4 * S n1)%nat with (S (S (S (S (4 * n1))))) by lia.
  cbn [map_loop map_loop4]. cbv zeta. rewrite IH.
  replace (p + 1 + 1) with (p + 2) by lia. replace (p + 2 + 1) with (p + 3) by lia.
  replace (p + 3 + 1) with (p + 4) by lia. reflexivity.
Qed.
Lemma map_unrolled_eq f n p m : map_unrolled f n p m = map_loop f n p 1 m.
Proof.
  unfold map_unrolled. cbv zeta. rewrite map_loop4_eq.
  pose proof (Nat.div_mod n 4 ltac:(lia)) as D.
  replace (map_loop f n p 1 m)
    with (map_loop f (4 * Nat.div n 4 + (n - 4 * Nat.div n 4)) p 1 m) by (f_equal; lia).
  rewrite map_loop_app. f_equal. lia.
Qed.
Lemma zip_loop_app f n1 n2 p1 s1 p2 s2 m :
  zip_loop f (n1 + n2) p1 s1 p2 s2 m =
  zip_loop f n2 (p1 + Z.of_nat n1 * s1) s1 (p2 + Z.of_nat n1 * s2) s2 (zip_loop f n1 p1 s1 p2 s2 m).
Proof.
  revert p1 p2 m. induction n1 as [|n1 IH]; intros p1 p2 m; cbn [plus zip_loop].
  - f_equal; lia.
  - rewrite IH. f_equal; lia.
Qed.
Lemma zip_loop4_eq f n1 p1 p2 m : zip_loop4 f n1 p1 p2 m = zip_loop f (4 * n1) p1 1 p2 1 m.
Proof.
  revert p1 p2 m. induction n1 as [|n1 IH]; intros p1 p2 m; [reflexivity|].
  replace (4 * S n1)%nat with (S (S (S (S (4 * n1))))) by lia.
  cbn [zip_loop zip_loop4]. cbv zeta. rewrite IH.
  replace (p1 + 1 + 1) with (p1 + 2) by lia. replace (p1 + 2 + 1) with (p1 + 3) by lia.
  replace (p1 + 3 + 1) with (p1 + 4) by lia.
  replace (p2 + 1 + 1) with (p2 + 2) by lia. replace (p2 + 2 + 1) with (p2 + 3) by lia.
  replace (p2 + 3 + 1) with (p2 + 4) by lia. reflexivity.
Qed.
Lemma zip_unrolled_eq f n p1 p2 m : zip_unrolled f n p1 p2 m = zip_loop f n p1 1 p2 1 m.
Proof.
  unfold zip_unrolled. cbv zeta. rewrite zip_loop4_eq.
  pose proof (Nat.div_mod n 4 ltac:(lia)) as D.
  replace (zip_loop f n p1 1 p2 1 m)
    with (zip_loop f (4 * Nat.div n 4 + (n - 4 * Nat.div n 4)) p1 1 p2 1 m) by (f_equal; lia).
  rewrite zip_loop_app. f_equal; lia.
Qed.

(** Stored-value level: [maps], [zips]. *)
Definition maps (f : K -> K) v m m' : Prop :=
  (forall i, 0 <= i < vsize v -> m' (addr v i) = f (m (addr v i))) /\ same_outside v m m'.
Definition zips (f : K -> K -> K) v1 v2 m m' : Prop :=
  (forall i, 0 <= i < vsize v2 -> m' (addr v2 i) = f (m (addr v1 i)) (m (addr v2 i))) /\
  same_outside v2 m m'.

Lemma in_view_reverse v a : in_view (v_reverse v) a <-> in_view v a.
Proof.
  split; intros [i [Hi E]]; exists (vsize v - 1 - i); cbn [v_reverse vsize] in Hi |- *;
    (split; [lia|]); rewrite E, ?reverse_elems; try (f_equal; lia); reflexivity.
Qed.
Lemma in_view_conj v a : in_view (v_conjugate v) a <-> in_view v a.
Proof. reflexivity. Qed.

Lemma maps_reverse f v m m' : maps f (v_reverse v) m m' -> maps f v m m'.
Proof.
  intros [H1 H2]. split.
  - intros i Hi. specialize (H1 (vsize v - 1 - i) ltac:(cbn [v_reverse vsize]; lia)).
    rewrite reverse_elems in H1. replace (vsize v - 1 - (vsize v - 1 - i)) with i in H1 by lia. exact H1.
  - intros a Ha. apply H2. intro X. apply Ha. apply in_view_reverse, X.
Qed.
Lemma zips_reverse f v1 v2 m m' : vsize v1 = vsize v2 ->
  zips f (v_reverse v1) (v_reverse v2) m m' -> zips f v1 v2 m m'.
Proof.
  intros E [H1 H2]. split.
  - intros i Hi. specialize (H1 (vsize v2 - 1 - i) ltac:(cbn [v_reverse vsize]; lia)).
    rewrite !reverse_elems, E in H1.
    replace (vsize v2 - 1 - (vsize v2 - 1 - i)) with i in H1 by lia. exact H1.
  - intros a Ha. apply H2. intro X. apply Ha. apply in_view_reverse, X.
Qed.
Lemma maps_conj f v m m' : maps f (v_conjugate v) m m' <-> maps f v m m'.
Proof. reflexivity. Qed.

Lemma map_loop_maps f v m : vstep v <> 0 ->
  maps f v m (map_loop f (vn v) (vptr v) (vstep v) m).
Proof.
  intro Hs. destruct (map_loop_spec f (vn v) (vptr v) (vstep v) m Hs) as [H1 H2].
  unfold vn in *. split.
  - intros i Hi. unfold addr. apply H1. lia.
  - intros a Ha. apply H2. intros i Hi E. apply Ha. exists i. split; [lia|exact E].
Qed.
Lemma zip_loop_zips f v1 v2 m : vstep v2 <> 0 -> safe v1 v2 ->
  zips f v1 v2 m (zip_loop f (vn v2) (vptr v1) (vstep v1) (vptr v2) (vstep v2) m).
Proof.
  intros Hs Hc. destruct (zip_loop_spec f (vn v2) (vptr v1) (vstep v1) (vptr v2) (vstep v2) m Hs) as [H1 H2].
  { intros i j Hi Hj Hij. apply (Hc i j); unfold vn in *; lia. }
  unfold vn in *. split.
  - intros i Hi. unfold addr. apply H1. lia.
  - intros a Ha. apply H2. intros i Hi E. apply Ha. exists i. split; [lia|exact E].
Qed.

Lemma maps_ext f g v m m' : (forall y, f y = g y) -> maps f v m m' -> maps g v m m'.
Proof. intros E [H1 H2]. split; auto. intros i Hi. rewrite H1, E; auto. Qed.
Lemma zips_ext f g v1 v2 m m' : (forall y z, f y z = g y z) -> zips f v1 v2 m m' -> zips g v1 v2 m m'.
Proof. intros E [H1 H2]. split; auto. intros i Hi. rewrite H1, E; auto. Qed.

Lemma maps_becomes f g v m m' :
  (forall i, 0 <= i < vsize v -> (if vconj v then cj (f (m (addr v i))) else f (m (addr v i))) = g i) ->
  maps f v m m' -> becomes v m m' g.
Proof.
  intros E [H1 H2]. split; auto. intros i Hi. rewrite <- E by auto. unfold get. rewrite H1; auto.
Qed.

(** ** Modifiers *)
Lemma conj1 (v : view) x : (if vconj v then cj (if vconj v then cj x else x) else (if vconj v then cj x else x)) = x.
Proof. destruct (vconj v); [apply cj_cj|reflexivity]. Qed.

Lemma step_reverse v : vstep (v_reverse v) = - vstep v.
Proof. reflexivity. Qed.

(** Case split "reverse if the step is negative". *)
Lemma set_all_to_maps v x m : vstep v <> 0 ->
  (vconj v = false \/ Z.abs (vstep v) <> 1 \/ cj x = x) ->
  maps (fun _ => if vconj v then cj x else x) v m (set_all_to v x m).
Proof.
  intros Hs Hx.
  assert (P : forall w, 0 < vstep w -> vconj w = vconj v -> Z.abs (vstep w) = Z.abs (vstep v) ->
              maps (fun _ => if vconj v then cj x else x) w m (set_all_to_pos w x m)).
  { intros w Hw Hc Ha. unfold set_all_to_pos.
    destruct (Z.eqb_spec (vstep w) 0); [lia|]. destruct (Z.eqb_spec (vstep w) 1) as [E|E].
    - rewrite <- E. apply maps_ext with (f := fun _ => x); [|apply map_loop_maps; lia].
      intros _. destruct (vconj v); [|reflexivity]. destruct Hx as [H|[H|H]]; [discriminate|lia|auto].
    - rewrite Hc. destruct (vconj v); apply map_loop_maps; auto. }
  unfold set_all_to. destruct (Z.ltb_spec (vstep v) 0).
  - apply maps_reverse. apply P; rewrite ?step_reverse; try lia. reflexivity.
  - apply P; auto; lia.
Qed.

Lemma set_zero_maps v m : vstep v <> 0 -> maps (fun _ => k0) v m (set_zero v m).
Proof.
  intro Hs. unfold set_zero. destruct (Z.eqb_spec (vstep v) 1) as [E|E].
  - rewrite <- E. apply map_loop_maps. exact Hs.
  - apply maps_ext with (f := fun _ => if vconj v then cj k0 else k0).
    + intros _. rewrite cj_0. destruct (vconj v); reflexivity.
    + apply set_all_to_maps; auto. right; right; apply cj_0.
Qed.

Lemma clip_maps (small : K -> bool) v m : vstep v <> 0 ->
  maps (fun y : K => if small y then k0 else y) v m (clip small v m).
Proof.
  intro Hs. unfold clip, clip_pos. destruct (Z.ltb_spec (vstep v) 0).
  - apply maps_reverse. rewrite (proj2 (Z.eqb_neq _ 0)) by (rewrite step_reverse; lia).
    apply map_loop_maps. rewrite step_reverse. lia.
  - rewrite (proj2 (Z.eqb_neq _ 0)) by lia. apply map_loop_maps. lia.
Qed.

Lemma add_to_all_maps v x m : vstep v <> 0 ->
  maps (fun y => kadd y (if vconj v then cj x else x)) v m (add_to_all v x m).
Proof.
  intro Hs. unfold add_to_all, add_to_all_pos. destruct (Z.ltb_spec (vstep v) 0).
  - apply maps_reverse. rewrite (proj2 (Z.eqb_neq _ 0)) by (rewrite step_reverse; lia).
    cbn [v_reverse vconj]. destruct (vconj v); apply (map_loop_maps _ (v_reverse v)); rewrite step_reverse; lia.
  - rewrite (proj2 (Z.eqb_neq _ 0)) by lia. destruct (vconj v); apply map_loop_maps; lia.
Qed.

Lemma map_loop_id f n p s m : (forall y, f y = y) -> forall a, map_loop f n p s m a = m a.
Proof.
  intro H. revert p m. induction n as [|n IH]; intros p m a; [reflexivity|].
  cbn [map_loop]. rewrite IH. unfold set. destruct (Z.eqb_spec a p); subst; auto.
Qed.

Lemma conjugate_self_maps v m : vstep v <> 0 -> maps cj v m (conjugate_self v m).
Proof.
  intro Hs. unfold conjugate_self, conjugate_self_pos. destruct (kcplx K) eqn:Ek.
  - destruct (Z.ltb_spec (vstep v) 0).
    + apply maps_reverse. destruct (Z.eqb_spec (vstep (v_reverse v)) 1) as [E|E].
      * rewrite <- E. apply map_loop_maps. lia.
      * rewrite (proj2 (Z.eqb_neq _ 0)) by (rewrite step_reverse; lia).
        apply map_loop_maps. rewrite step_reverse. lia.
    + destruct (Z.eqb_spec (vstep v) 1) as [E|E].
      * rewrite <- E. apply map_loop_maps. lia.
      * rewrite (proj2 (Z.eqb_neq _ 0)) by lia. apply map_loop_maps. lia.
  - replace (if vstep v <? 0 then m else m) with m by (destruct (vstep v <? 0); reflexivity).
    split; [|intros a _; reflexivity]. intros i Hi. symmetry. apply cj_real_type. exact Ek.
Qed.

Lemma addr_inj v i j : vstep v <> 0 -> addr v i = addr v j -> i = j.
Proof. unfold addr. intros Hs E. assert ((i - j) * vstep v = 0) by lia. nia. Qed.

Lemma make_basis_ok v i m : vstep v <> 0 -> 0 <= i < vsize v ->
  exists m', make_basis v i m = Ok m' /\ becomes v m m' (fun j => if j =? i then k1 else k0).
Proof.
  intros Hs Hi. unfold make_basis.
  rewrite (proj2 (Z.leb_le 0 i)), (proj2 (Z.ltb_lt i _)) by lia. cbn [andb].
  eexists. split; [reflexivity|].
  destruct (set_zero_maps v m Hs) as [H1 H2]. split.
  - intros j Hj. unfold get. destruct (Z.eqb_spec j i) as [->|Hne].
    + rewrite !set_eq. apply conj1.
    + rewrite !set_neq by (intro E; apply Hne, (addr_inj v j i Hs E)).
      rewrite H1 by auto. rewrite cj_0. destruct (vconj v); reflexivity.
  - intros a Ha. rewrite set_neq; [apply H2, Ha|]. intros ->. apply Ha. exists i. auto.
Qed.

Lemma do_swap_ok v i j m : vstep v <> 0 -> 0 <= i < vsize v -> 0 <= j < vsize v ->
  becomes v m (do_swap v i j m)
    (fun k => get m v (if k =? i then j else if k =? j then i else k)).
Proof.
  intros Hs Hi Hj. unfold do_swap. destruct (Z.eqb_spec i j) as [<-|Hne].
  - split; [|intros a _; reflexivity]. intros k Hk. destruct (Z.eqb_spec k i); subst; auto.
  - assert (Ha : addr v i <> addr v j) by (intro E; apply Hne, (addr_inj v _ _ Hs E)).
    cbv zeta. split.
    + intros k Hk. unfold get. destruct (Z.eqb_spec k i) as [->|H1].
      * rewrite set_neq, set_eq by auto. reflexivity.
      * destruct (Z.eqb_spec k j) as [->|H2].
        -- rewrite set_eq. reflexivity.
        -- rewrite !set_neq; [reflexivity| |]; intro E; [apply H1|apply H2]; apply (addr_inj v _ _ Hs E).
    + intros a Hna. rewrite !set_neq; [reflexivity| |]; intros ->; apply Hna;
        [exists i|exists j]; auto.
Qed.

(** ** permute *)
Lemma becomes_trans v m1 m2 m3 f (g : Z -> Z) :
  becomes v m1 m2 f -> becomes v m2 m3 (fun i => get m2 v (g i)) ->
  (forall i, 0 <= i < vsize v -> 0 <= g i < vsize v) ->
  becomes v m1 m3 (fun i => f (g i)).
Proof.
  intros [A1 A2] [B1 B2] Hg. split.
  - intros i Hi. rewrite B1 by auto. apply A1, Hg, Hi.
  - intros a Ha. rewrite B2 by auto. apply A2, Ha.
Qed.

Lemma swap_checked_ok v i j m : 0 <= i < vsize v -> 0 <= j < vsize v ->
  swap_checked v i j m = Ok (do_swap v i j m).
Proof.
  intros Hi Hj. unfold swap_checked.
  rewrite (proj2 (Z.ltb_lt i _)), (proj2 (Z.ltb_lt j _)), (proj2 (Z.leb_le 0 i)), (proj2 (Z.leb_le 0 j)) by lia.
  reflexivity.
Qed.

(** ** reverseSelf *)
Lemma rev_loop_ok fuel p n s m k :
  0 < s -> 0 <= n -> 0 <= k -> (2 * Z.of_nat fuel >= n - 1 - 2 * k) ->
  exists m', rev_loop fuel (p + k * s) (p + (n - 1 - k) * s) s m = Some m' /\
    (forall i, k <= i <= n - 1 - k -> m' (p + i * s) = m (p + (n - 1 - i) * s)) /\
    (forall a, (forall i, k <= i <= n - 1 - k -> a <> p + i * s) -> m' a = m a).
Proof.
  intros Hs Hn. revert m k. induction fuel as [|fuel IH]; intros m k Hk Hf.
  - exists m. split.
    + cbn [rev_loop]. destruct (Z.ltb_spec (p + k * s) (p + (n - 1 - k) * s)); [nia|reflexivity].
    + split; [|auto]. intros i Hi. assert (i = n - 1 - i) by lia. congruence.
  - cbn [rev_loop]. destruct (Z.ltb_spec (p + k * s) (p + (n - 1 - k) * s)) as [Hlt|Hge].
    + cbv zeta. set (m1 := VecOps.set _ _ _).
      destruct (IH m1 (k + 1) ltac:(lia) ltac:(lia)) as (m' & E & H1 & H2).
      replace (p + k * s + s) with (p + (k + 1) * s) by lia.
      replace (p + (n - 1 - k) * s - s) with (p + (n - 1 - (k + 1)) * s) by lia.
      exists m'. split; [exact E|]. 
      assert (Hkk : k < n - 1 - k) by nia.
      assert (Mk : m1 (p + k * s) = m (p + (n - 1 - k) * s)).
      { unfold m1. rewrite set_neq by nia. apply set_eq. }
      assert (Mn : m1 (p + (n - 1 - k) * s) = m (p + k * s)).
      { unfold m1. apply set_eq. }
      assert (Mo : forall a, a <> p + k * s -> a <> p + (n - 1 - k) * s -> m1 a = m a).
      { intros a Ha Hb. unfold m1. rewrite !set_neq; auto. }
      split.
      * intros i Hi. destruct (Z.eq_dec i k) as [->|N1].
        -- rewrite H2; [exact Mk|]. intros i Hi'. nia.
        -- destruct (Z.eq_dec i (n - 1 - k)) as [->|N2].
           ++ rewrite H2; [|intros i Hi'; nia]. rewrite Mn. f_equal. lia.
           ++ rewrite H1 by lia. apply Mo; nia.
      * intros a Ha. rewrite H2.
        -- apply Mo; [apply Ha; lia|apply Ha; lia].
        -- intros i Hi. apply Ha. lia.
    + exists m. split; [reflexivity|]. split; auto.
      intros i Hi. assert (n - 1 - k <= k) by nia. assert (i = n - 1 - i) by lia. congruence.
Qed.

Lemma reverse_self_pos_ok v m : 0 < vstep v -> 0 <= vsize v ->
  exists m', reverse_self_pos v m = Some m' /\
    (forall i, 0 <= i < vsize v -> m' (addr v i) = m (addr v (vsize v - 1 - i))) /\
    same_outside v m m'.
Proof.
  intros Hs Hn. unfold reverse_self_pos. rewrite (proj2 (Z.ltb_lt 0 _) Hs).
  destruct (rev_loop_ok (vn v) (vptr v) (vsize v) (vstep v) m 0 Hs Hn ltac:(lia)) as (m' & E & H1 & H2).
  { unfold vn. lia. }
  exists m'. replace (vptr v + 0 * vstep v) with (vptr v) in E by lia.
  replace (vptr v + (vsize v - 1 - 0) * vstep v) with (vptr v + vstep v * (vsize v - 1)) in E by lia.
  split; [exact E|]. split.
  - intros i Hi. apply H1. lia.
  - intros a Ha. apply H2. intros i Hi X. apply Ha. exists i. split; [lia|exact X].
Qed.

Lemma reverse_self_ok v m : vstep v <> 0 -> 0 <= vsize v ->
  exists m', reverse_self v m = Some m' /\ becomes v m m' (fun i => get m v (vsize v - 1 - i)).
Proof.
  intros Hs Hn. unfold reverse_self. destruct (Z.ltb_spec (vstep v) 0).
  - destruct (reverse_self_pos_ok (v_reverse v) m) as (m' & E & H1 & H2);
      [rewrite step_reverse; lia|exact Hn|].
    exists m'. split; [exact E|]. split.
    + intros i Hi. unfold get. specialize (H1 (vsize v - 1 - i)). cbn [v_reverse vsize] in H1.
      rewrite !reverse_elems in H1.
      replace (vsize v - 1 - (vsize v - 1 - i)) with i in H1 by lia. rewrite H1 by lia. reflexivity.
    + intros a Ha. apply H2. intro X. apply Ha, in_view_reverse, X.
  - destruct (reverse_self_pos_ok v m) as (m' & E & H1 & H2); [lia|exact Hn|].
    exists m'. split; [exact E|]. split; [|exact H2].
    intros i Hi. unfold get. rewrite H1 by auto. reflexivity.
Qed.

(** ** Copy *)
Lemma get_conj m v i : typed (K:=K) v -> get m (v_conjugate v) i = cj (get m v i).
Proof.
  unfold typed, get. intro H. cbn [v_conjugate vconj]. change (addr (v_conjugate v) i) with (addr v i).
  rewrite H. destruct (kcplx K) eqn:Ek.
  - destruct (vconj v); cbn [negb]; [symmetry; apply cj_cj|reflexivity].
  - destruct (vconj v); rewrite !(cj_real_type K Ek); reflexivity.
Qed.

Lemma same_as_eq v1 v2 : same_as v1 v2 = true ->
  vptr v1 = vptr v2 /\ vsize v1 = vsize v2 /\ vstep v1 = vstep v2 /\ vconj v1 = vconj v2.
Proof.
  unfold same_as. rewrite !andb_true_iff, !Z.eqb_eq, Bool.eqb_true_iff. tauto.
Qed.
Lemma same_as_addr v1 v2 i : same_as v1 v2 = true -> addr v1 i = addr v2 i.
Proof. intro H. apply same_as_eq in H. unfold addr. destruct H as (-> & _ & -> & _). reflexivity. Qed.

Lemma do_copy_zips v1 v2 m : vstep v2 <> 0 -> safe v1 v2 ->
  zips (fun a _ => a) v1 v2 m (do_copy v1 v2 m).
Proof.
  intros Hs Hc. unfold do_copy. destruct (same_as v1 v2) eqn:E.
  - split; [|intros a _; reflexivity]. intros i Hi. rewrite (same_as_addr _ _ i E). reflexivity.
  - apply zip_loop_zips; auto.
Qed.

Lemma safe_conj1 v1 v2 : safe (v_conjugate v1) v2 <-> safe v1 v2.
Proof. reflexivity. Qed.
Lemma safe_conj2 v1 v2 : safe v1 (v_conjugate v2) <-> safe v1 v2.
Proof. reflexivity. Qed.
Lemma safe_reverse v1 v2 : vsize v1 = vsize v2 -> safe v1 v2 -> safe (v_reverse v1) (v_reverse v2).
Proof.
  intros E H i j Hi Hj Hij. cbn [v_reverse vsize] in Hi, Hj. rewrite !reverse_elems, E.
  apply H; lia.
Qed.

(** A conjugating copy: first the raw values, then conjugateSelf. *)
Lemma zips_then_maps f g v1 v2 m m1 m2 :
  zips f v1 v2 m m1 -> maps g v2 m1 m2 -> zips (fun a b => g (f a b)) v1 v2 m m2.
Proof.
  intros [A1 A2] [B1 B2]. split.
  - intros i Hi. rewrite B1, A1 by auto. reflexivity.
  - intros a Ha. rewrite B2, A2 by auto. reflexivity.
Qed.

(** "v2(i) := h (v1(i)) (v2(i))" at the level of read values. *)
Definition assigns (h : K -> K -> K) v1 v2 m m' : Prop :=
  becomes v2 m m' (fun i => h (get m v1 i) (get m v2 i)).

Lemma copy_fwd_ok v1 v2 m : vstep v2 <> 0 -> safe v1 v2 ->
  assigns (fun a _ => a) v1 v2 m (copy_fwd v1 v2 m).
Proof.
  intros Hs Hc. unfold copy_fwd, assigns.
  destruct (vconj v1) eqn:E1, (vconj v2) eqn:E2.
  - destruct (do_copy_zips (v_conjugate v1) (v_conjugate v2) m) as [H1 H2]; auto.
    split; [|exact H2]. intros i Hi. unfold get. rewrite E1, E2. f_equal. apply H1, Hi.
  - destruct (zips_then_maps _ cj (v_conjugate v1) v2 m _ _
                (do_copy_zips (v_conjugate v1) v2 m Hs Hc)
                (conjugate_self_maps v2 _ Hs)) as [H1 H2].
    split; [|exact H2]. intros i Hi. unfold get. rewrite E1, E2. apply H1, Hi.
  - destruct (zips_then_maps _ cj v1 v2 m _ _
                (do_copy_zips v1 (v_conjugate v2) m Hs Hc)
                (conjugate_self_maps v2 _ Hs)) as [H1 H2].
    split; [|exact H2]. intros i Hi. unfold get. rewrite E1, E2. rewrite H1, cj_cj; auto.
  - destruct (do_copy_zips v1 v2 m) as [H1 H2]; auto.
    split; [|exact H2]. intros i Hi. unfold get. rewrite E1, E2. apply H1, Hi.
Qed.

Lemma becomes_reverse v m m' f :
  becomes (v_reverse v) m m' (fun i => f (vsize v - 1 - i)) -> becomes v m m' f.
Proof.
  intros [H1 H2]. split.
  - intros i Hi. specialize (H1 (vsize v - 1 - i) ltac:(cbn [v_reverse vsize]; lia)).
    unfold get in *. cbn [v_reverse vconj] in H1. rewrite reverse_elems in H1.
    replace (vsize v - 1 - (vsize v - 1 - i)) with i in H1 by lia. exact H1.
  - intros a Ha. apply H2. intro X. apply Ha, in_view_reverse, X.
Qed.
Lemma get_reverse m v i : get m (v_reverse v) i = get m v (vsize v - 1 - i).
Proof. unfold get. cbn [v_reverse vconj]. rewrite reverse_elems. reflexivity. Qed.
Lemma becomes_ext v m m' f g :
  (forall i, 0 <= i < vsize v -> f i = g i) -> becomes v m m' f -> becomes v m m' g.
Proof. intros E [H1 H2]. split; auto. intros i Hi. rewrite <- E; auto. Qed.
Lemma assigns_reverse h v1 v2 m m' : vsize v1 = vsize v2 ->
  assigns h (v_reverse v1) (v_reverse v2) m m' -> assigns h v1 v2 m m'.
Proof.
  intros E H. apply becomes_reverse. revert H. apply becomes_ext. intros i Hi.
  rewrite !get_reverse, E. reflexivity.
Qed.

Lemma should_reverse_once s1 s2 : should_reverse s1 s2 = true -> should_reverse (- s1) (- s2) = false.
Proof.
  unfold should_reverse.
  destruct (Z.ltb_spec s2 0), (Z.eqb_spec s1 1), (Z.eqb_spec s2 (-1)), (Z.eqb_spec s1 (-1)), (Z.eqb_spec s2 1);
  destruct (Z.ltb_spec (- s2) 0), (Z.eqb_spec (- s1) 1), (Z.eqb_spec (- s2) (-1)), (Z.eqb_spec (- s1) (-1)), (Z.eqb_spec (- s2) 1);
  simpl; intro; try discriminate; try reflexivity; lia.
Qed.

Lemma empty_becomes v m f : vsize v <= 0 -> becomes v m m f.
Proof. intro H. split; [intros; lia|intros a _; reflexivity]. Qed.

Lemma copy_ok v1 v2 m : vstep v2 <> 0 -> vsize v1 = vsize v2 -> safe v1 v2 ->
  exists m', copy v1 v2 m = Some m' /\ becomes v2 m m' (fun i => get m v1 i).
Proof.
  intros Hs Hn Hc. unfold copy. cbn [copy_fuel]. destruct (Z.ltb_spec 0 (vsize v1)).
  - destruct (should_reverse (vstep v1) (vstep v2)) eqn:R.
    + cbn [v_reverse vsize]. rewrite (proj2 (Z.ltb_lt _ _)) by auto.
      change (vstep (v_reverse v1)) with (- vstep v1). change (vstep (v_reverse v2)) with (- vstep v2).
      cbn [vstep]. rewrite (should_reverse_once _ _ R). eexists. split; [reflexivity|].
      apply (assigns_reverse (fun a _ => a)); auto. apply copy_fwd_ok.
      * rewrite step_reverse. lia.
      * apply safe_reverse; auto.
    + eexists. split; [reflexivity|]. apply copy_fwd_ok; auto.
  - eexists. split; [reflexivity|]. apply empty_becomes. lia.
Qed.

End P.
