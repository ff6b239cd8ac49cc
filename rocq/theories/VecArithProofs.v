(** Proofs about MultXV and AddVV. *)
From Coq Require Import ZArith Lia Bool List Ring.
From Verif Require Import Base Scal VecView VecOps VecOpsProofs.
Import ListNotations.
Open Scope Z_scope.

Section P.
Context {K : scal}.
Implicit Types (m : mem K) (v : view) (x : K).
Add Ring KR : (kring K).

Lemma keqb_false x y : keqb x y = false -> x <> y.
Proof. intros H E. apply (keqb_eq K) in E. congruence. Qed.

Lemma typed_conj v : typed (K:=K) v -> typed (K:=K) (v_conjugate v).
Proof. auto. Qed.
Lemma typed_reverse v : typed (K:=K) v -> typed (K:=K) (v_reverse v).
Proof. auto. Qed.

Lemma conj_conj_flag v : typed (K:=K) v -> vconj v = true -> kcplx K = true -> vconj (v_conjugate v) = false.
Proof. unfold typed. intros H H1 H2. cbn [v_conjugate vconj]. rewrite H, H2, H1. reflexivity. Qed.
Lemma conj_flag_off v : typed (K:=K) v -> vconj v = true -> vconj (v_conjugate v) = false.
Proof.
  unfold typed. intros H H1. cbn [v_conjugate vconj]. destruct (vcplx v); [rewrite H1|]; reflexivity.
Qed.

(** Moving a statement about v.conjugate() to v. *)
Lemma becomes_conj v m m' f : typed (K:=K) v ->
  becomes (v_conjugate v) m m' (fun i => cj (f i)) -> becomes v m m' f.
Proof.
  intros Ht [H1 H2]. split; [|exact H2]. intros i Hi. specialize (H1 i Hi).
  rewrite get_conj in H1 by auto. rewrite <- (cj_cj K (get m' v i)), H1. apply cj_cj.
Qed.

(** ** v *= x *)
Lemma do_mult_xv_maps x v m : vstep v <> 0 -> maps (fun y => kmul y x) v m (do_mult_xv x v m).
Proof.
  intro Hs. unfold do_mult_xv. destruct (Z.eqb_spec (vstep v) 1) as [E|E].
  - rewrite map_unrolled_eq, <- E. apply map_loop_maps, Hs.
  - apply map_loop_maps, Hs.
Qed.

Lemma mult_xv_id v m x : x = k1 -> becomes v m m (fun i => kmul x (get m v i)).
Proof. intros ->. split; [|intros a _; reflexivity]. intros. ring. Qed.

Lemma maps_becomes_nc f g v m m' : vconj v = false ->
  (forall i, 0 <= i < vsize v -> f (get m v i) = g i) -> maps f v m m' -> becomes v m m' g.
Proof.
  intros Hc E H. apply maps_becomes with (f := f); auto. intros i Hi. rewrite <- E by auto.
  unfold get. rewrite Hc. reflexivity.
Qed.

Lemma mult_xv_base k x v m : 0 < vstep v -> vconj v = false ->
  exists m', mult_xv_fuel (S k) x v m = Some m' /\ becomes v m m' (fun i => kmul x (get m v i)).
Proof.
  intros Hs Hc. cbn [mult_xv_fuel]. destruct (Z.ltb_spec 0 (vsize v)) as [Hn|Hn]; cbn [andb].
  2:{ eexists. split; [reflexivity|]. apply empty_becomes. lia. }
  destruct (keqb x k1) eqn:E1; cbn [negb].
  { eexists. split; [reflexivity|]. apply mult_xv_id. apply (keqb_eq K), E1. }
  destruct (Z.ltb_spec (vstep v) 0); [lia|]. rewrite Hc.
  destruct (keqb x k0) eqn:E0.
  { eexists. split; [reflexivity|]. eapply maps_becomes_nc; [exact Hc| |apply set_zero_maps; lia].
    intros i Hi. apply (keqb_eq K) in E0. rewrite E0. simpl. ring. }
  destruct (kcplx K && kisreal x) eqn:Er.
  - eexists. split; [reflexivity|]. eapply maps_becomes_nc; [exact Hc| |apply do_mult_xv_maps; lia].
    intros i Hi. apply andb_prop in Er. rewrite (kre_real K x) by tauto. simpl. ring.
  - eexists. split; [reflexivity|]. eapply maps_becomes_nc; [exact Hc| |apply do_mult_xv_maps; lia].
    intros i Hi. simpl. ring.
Qed.

Lemma mult_xv_pos k x v m : 0 < vstep v -> typed (K:=K) v ->
  exists m', mult_xv_fuel (S (S k)) x v m = Some m' /\ becomes v m m' (fun i => kmul x (get m v i)).
Proof.
  intros Hs Ht. destruct (vconj v) eqn:Hc; [|apply mult_xv_base; auto].
  remember (S k) as k'. cbn [mult_xv_fuel].
  destruct (Z.ltb_spec 0 (vsize v)) as [Hn|Hn]; cbn [andb].
  2:{ eexists. split; [reflexivity|]. apply empty_becomes. lia. }
  destruct (keqb x k1) eqn:E1; cbn [negb].
  { eexists. split; [reflexivity|]. apply mult_xv_id. apply (keqb_eq K), E1. }
  destruct (Z.ltb_spec (vstep v) 0); [lia|]. rewrite Hc. subst k'.
  destruct (mult_xv_base k (cj x) (v_conjugate v) m) as (m' & E & H'); auto.
  { apply conj_flag_off; auto. }
  exists m'. split; [exact E|]. apply becomes_conj; auto. revert H'. apply becomes_ext.
  intros i Hi. rewrite get_conj, cj_mul; auto.
Qed.

Lemma mult_xv_ok x v m : vstep v <> 0 -> typed (K:=K) v ->
  exists m', mult_xv x v m = Some m' /\ becomes v m m' (fun i => kmul x (get m v i)).
Proof.
  intros Hs Ht. unfold mult_xv. destruct (Z_lt_le_dec (vstep v) 0) as [Hneg|Hpos].
  2:{ apply mult_xv_pos; auto; lia. }
  remember 2%nat as k'. cbn [mult_xv_fuel].
  destruct (Z.ltb_spec 0 (vsize v)) as [Hn|Hn]; cbn [andb].
  2:{ eexists. split; [reflexivity|]. apply empty_becomes. lia. }
  destruct (keqb x k1) eqn:E1; cbn [negb].
  { eexists. split; [reflexivity|]. apply mult_xv_id. apply (keqb_eq K), E1. }
  rewrite (proj2 (Z.ltb_lt _ _) Hneg). subst k'.
  destruct (mult_xv_pos 0 x (v_reverse v) m) as (m' & E & H'); auto.
  { rewrite step_reverse. lia. }
  exists m'. split; [exact E|]. apply becomes_reverse. revert H'. apply becomes_ext.
  intros i Hi. rewrite get_reverse. reflexivity.
Qed.

(** ** v2 = x*v1 *)
Lemma zips_becomes_nc f h v1 v2 m m' : vconj v2 = false ->
  (forall i, 0 <= i < vsize v2 -> f (m (addr v1 i)) (get m v2 i) = h i) ->
  zips f v1 v2 m m' -> becomes v2 m m' h.
Proof.
  intros Hc E [H1 H2]. split; [|exact H2]. intros i Hi. rewrite <- E by auto.
  unfold get. rewrite Hc. apply H1, Hi.
Qed.

Lemma do_mult_xvv_zips (c1 : bool) x v1 v2 m : vstep v2 <> 0 -> vsize v1 = vsize v2 -> safe v1 v2 ->
  zips (fun a (_ : K) => kmul x (if c1 then cj a else a)) v1 v2 m (do_mult_xvv c1 x v1 v2 m).
Proof.
  intros Hs Hn Hc. unfold do_mult_xvv. assert (Ev : vn v1 = vn v2) by (unfold vn; congruence).
  destruct (Z.eqb_spec (vstep v1) 1) as [E1|], (Z.eqb_spec (vstep v2) 1) as [E2|]; cbn [andb];
    rewrite Ev; try (apply zip_loop_zips; auto).
  rewrite zip_unrolled_eq. rewrite <- E1 at 1. rewrite <- E2. apply zip_loop_zips; auto.
Qed.

Lemma safe_step0 v1 v2 i : vstep v1 = 0 -> addr v1 i = vptr v1.
Proof. unfold addr. intros ->. lia. Qed.

Lemma mult_xvv_base k x v1 v2 m : vstep v2 <> 0 -> vsize v1 = vsize v2 -> safe v1 v2 ->
  typed (K:=K) v1 -> typed (K:=K) v2 -> vconj v2 = false ->
  should_reverse (vstep v1) (vstep v2) = false ->
  exists m', mult_xvv_fuel (S k) x v1 v2 m = Some m' /\ becomes v2 m m' (fun i => kmul x (get m v1 i)).
Proof.
  intros Hs Hn Hsafe T1 T2 Hc HR. cbn [mult_xvv_fuel].
  destruct (Z.ltb_spec 0 (vsize v2)) as [Hp|Hp].
  2:{ eexists. split; [reflexivity|]. apply empty_becomes. lia. }
  rewrite Hc. destruct (Z.eqb_spec (vsize v2) 1) as [Hone|Hone].
  { eexists. split; [reflexivity|]. split.
    - intros i Hi. replace i with 0 by lia. unfold get, addr. rewrite Hc.
      rewrite !Z.mul_0_l, !Z.add_0_r. apply set_eq.
    - intros a Ha. apply set_neq. intros ->. apply Ha. exists 0. split; [lia|]. unfold addr. lia. }
  rewrite HR. destruct (keqb x k0) eqn:E0.
  { eexists. split; [reflexivity|]. eapply maps_becomes_nc; [exact Hc| |apply set_zero_maps; auto].
    intros i Hi. apply (keqb_eq K) in E0. rewrite E0. simpl. ring. }
  destruct (keqb x k1) eqn:E1.
  { destruct (copy_ok v1 v2 m Hs Hn Hsafe) as (m' & E & H). exists m'. split; [exact E|].
    revert H. apply becomes_ext. intros i Hi. apply (keqb_eq K) in E1. rewrite E1. ring. }
  destruct (Z.eqb_spec (vstep v1) 0) as [Z1|Z1].
  { eexists. split; [reflexivity|].
    eapply maps_becomes_nc; [exact Hc| |apply set_all_to_maps; auto].
    intros i Hi. cbv beta. rewrite Hc. unfold get. rewrite safe_step0; auto. }
  destruct (same_as v2 v1) eqn:ES.
  { destruct (mult_xv_ok x v2 m Hs T2) as (m' & E & H). exists m'. split; [exact E|].
    revert H. apply becomes_ext. intros i Hi. unfold get. rewrite (same_as_addr _ _ i ES).
    destruct (same_as_eq _ _ ES) as (_ & _ & _ & ->). reflexivity. }
  assert (F : forall c (y : K), y = x -> c = vconj v1 ->
     exists m', Some (do_mult_xvv c y v1 v2 m) = Some m' /\
                becomes v2 m m' (fun i => kmul x (get m v1 i))).
  { intros c y -> ->. eexists. split; [reflexivity|].
    eapply zips_becomes_nc; [exact Hc| |apply do_mult_xvv_zips; auto].
    intros i Hi. cbv beta. reflexivity. }
  destruct (kcplx K && kisreal x) eqn:Er.
  - assert (Ex : kre x = x) by (apply kre_real; apply andb_prop in Er; tauto).
    destruct (vconj v1) eqn:C1; cbn [Bool.eqb andb].
    + apply F; auto.
    + destruct ((vstep v1 =? 1) && (vstep v2 =? 1)); apply F; auto.
  - destruct (vconj v1) eqn:C1; apply F; auto.
Qed.

Lemma mult_xvv_nc k x v1 v2 m : vstep v2 <> 0 -> vsize v1 = vsize v2 -> safe v1 v2 ->
  typed (K:=K) v1 -> typed (K:=K) v2 -> vconj v2 = false ->
  exists m', mult_xvv_fuel (S (S k)) x v1 v2 m = Some m' /\ becomes v2 m m' (fun i => kmul x (get m v1 i)).
Proof.
  intros Hs Hn Hsafe T1 T2 Hc.
  destruct (should_reverse (vstep v1) (vstep v2)) eqn:HR.
  2:{ apply mult_xvv_base; auto. }
  remember (S k) as k'. cbn [mult_xvv_fuel].
  destruct (Z.ltb_spec 0 (vsize v2)) as [Hp|Hp].
  2:{ eexists. split; [reflexivity|]. apply empty_becomes. lia. }
  rewrite Hc. destruct (Z.eqb_spec (vsize v2) 1) as [Hone|Hone].
  { eexists. split; [reflexivity|]. split.
    - intros i Hi. replace i with 0 by lia. unfold get, addr. rewrite Hc.
      rewrite !Z.mul_0_l, !Z.add_0_r. apply set_eq.
    - intros a Ha. apply set_neq. intros ->. apply Ha. exists 0. split; [lia|]. unfold addr. lia. }
  rewrite HR. subst k'.
  destruct (mult_xvv_base k x (v_reverse v1) (v_reverse v2) m) as (m' & E & H); auto.
  - rewrite step_reverse. lia.
  - apply safe_reverse; auto.
  - rewrite !step_reverse. apply should_reverse_once, HR.
  - exists m'. split; [exact E|]. apply becomes_reverse. revert H. apply becomes_ext.
    intros i Hi. rewrite get_reverse, Hn. reflexivity.
Qed.

Lemma mult_xvv_ok x v1 v2 m : vstep v2 <> 0 -> vsize v1 = vsize v2 -> safe v1 v2 ->
  typed (K:=K) v1 -> typed (K:=K) v2 ->
  exists m', mult_xvv x v1 v2 m = Some m' /\ becomes v2 m m' (fun i => kmul x (get m v1 i)).
Proof.
  intros Hs Hn Hsafe T1 T2. unfold mult_xvv. destruct (vconj v2) eqn:Hc.
  2:{ apply mult_xvv_nc; auto. }
  remember 2%nat as k'. cbn [mult_xvv_fuel].
  destruct (Z.ltb_spec 0 (vsize v2)) as [Hp|Hp].
  2:{ eexists. split; [reflexivity|]. apply empty_becomes. lia. }
  rewrite Hc. subst k'.
  destruct (mult_xvv_nc 0 (cj x) (v_conjugate v1) (v_conjugate v2) m) as (m' & E & H); auto.
  - apply conj_flag_off; auto.
  - exists m'. split; [exact E|]. apply becomes_conj; auto. revert H. apply becomes_ext.
    intros i Hi. rewrite get_conj, cj_mul by auto. reflexivity.
Qed.

(** ** v2 += x*v1 *)
Lemma nonblas_add_vv_zips (c1 : bool) x v1 v2 m : vstep v2 <> 0 -> safe v1 v2 ->
  zips (fun a b : K => kadd b (kmul x (if c1 then cj a else a))) v1 v2 m (nonblas_add_vv c1 x v1 v2 m).
Proof.
  intros Hs Hc. unfold nonblas_add_vv. cbv zeta.
  set (f := if keqb x k1 then _ else _).
  apply zips_ext with (f := f).
  { intros a b. subst f. destruct (keqb x k1) eqn:E1.
    - apply (keqb_eq K) in E1. rewrite E1. ring.
    - destruct (keqb x (kopp k1)) eqn:E2; [|reflexivity].
      apply (keqb_eq K) in E2. rewrite E2. ring. }
  destruct (Z.eqb_spec (vstep v1) 1) as [E1|], (Z.eqb_spec (vstep v2) 1) as [E2|]; cbn [andb];
    try (apply zip_loop_zips; auto).
  rewrite zip_unrolled_eq. rewrite <- E1 at 1. rewrite <- E2. apply zip_loop_zips; auto.
Qed.

Lemma add_vv_zero v1 v2 m x : x = k0 ->
  becomes v2 m m (fun i => kadd (get m v2 i) (kmul x (get m v1 i))).
Proof. intros ->. split; [|intros a _; reflexivity]. intros. ring. Qed.

(** The isSameAs branch, common to all levels. *)
Lemma add_vv_same v1 v2 x m : vstep v2 <> 0 -> typed (K:=K) v2 -> same_as v2 v1 = true ->
  exists m', (if keqb x (kopp k1) then Some (set_zero v2 m) else mult_xv (kadd x k1) v2 m) = Some m' /\
    becomes v2 m m' (fun i => kadd (get m v2 i) (kmul x (get m v1 i))).
Proof.
  intros Hs T2 ES.
  assert (G : forall i, get m v1 i = get m v2 i).
  { intro i. unfold get. rewrite (same_as_addr _ _ i ES).
    destruct (same_as_eq _ _ ES) as (_ & _ & _ & ->). reflexivity. }
  destruct (keqb x (kopp k1)) eqn:E.
  - eexists. split; [reflexivity|]. destruct (set_zero_maps v2 m Hs) as [H1 H2].
    split; [|exact H2]. intros i Hi. rewrite G. apply (keqb_eq K) in E. rewrite E.
    unfold get at 1. rewrite H1 by auto. rewrite cj_0. destruct (vconj v2); ring.
  - destruct (mult_xv_ok (kadd x k1) v2 m Hs T2) as (m' & E' & H). exists m'. split; [exact E'|].
    revert H. apply becomes_ext. intros i Hi. rewrite G. ring.
Qed.

Lemma add_vv_base k x v1 v2 m : vstep v2 <> 0 -> vsize v1 = vsize v2 -> safe v1 v2 ->
  typed (K:=K) v1 -> typed (K:=K) v2 -> vconj v2 = false ->
  should_reverse (vstep v1) (vstep v2) = false ->
  exists m', add_vv_fuel (S k) x v1 v2 m = Some m' /\
    becomes v2 m m' (fun i => kadd (get m v2 i) (kmul x (get m v1 i))).
Proof.
  intros Hs Hn Hsafe T1 T2 Hc HR. cbn [add_vv_fuel].
  destruct (Z.ltb_spec 0 (vsize v2)) as [Hp|Hp]; cbn [andb].
  2:{ eexists. split; [reflexivity|]. apply empty_becomes. lia. }
  destruct (keqb x k0) eqn:E0; cbn [negb].
  { eexists. split; [reflexivity|]. apply add_vv_zero. apply (keqb_eq K), E0. }
  destruct (same_as v2 v1) eqn:ES; [apply add_vv_same; auto|].
  rewrite Hc, HR. eexists. split; [reflexivity|]. unfold do_add_vv.
  eapply zips_becomes_nc; [exact Hc| |apply nonblas_add_vv_zips; auto].
  intros i Hi. cbv beta. replace (if kisreal x then kre x else x) with x.
  - reflexivity.
  - destruct (kisreal x) eqn:E; auto. symmetry. apply kre_real, E.
Qed.

Lemma add_vv_nc k x v1 v2 m : vstep v2 <> 0 -> vsize v1 = vsize v2 -> safe v1 v2 ->
  typed (K:=K) v1 -> typed (K:=K) v2 -> vconj v2 = false ->
  exists m', add_vv_fuel (S (S k)) x v1 v2 m = Some m' /\
    becomes v2 m m' (fun i => kadd (get m v2 i) (kmul x (get m v1 i))).
Proof.
  intros Hs Hn Hsafe T1 T2 Hc.
  destruct (should_reverse (vstep v1) (vstep v2)) eqn:HR.
  2:{ apply add_vv_base; auto. }
  remember (S k) as k'. cbn [add_vv_fuel].
  destruct (Z.ltb_spec 0 (vsize v2)) as [Hp|Hp]; cbn [andb].
  2:{ eexists. split; [reflexivity|]. apply empty_becomes. lia. }
  destruct (keqb x k0) eqn:E0; cbn [negb].
  { eexists. split; [reflexivity|]. apply add_vv_zero. apply (keqb_eq K), E0. }
  destruct (same_as v2 v1) eqn:ES; [apply add_vv_same; auto|].
  rewrite Hc, HR. subst k'.
  destruct (add_vv_base k x (v_reverse v1) (v_reverse v2) m) as (m' & E & H); auto.
  - rewrite step_reverse. lia.
  - apply safe_reverse; auto.
  - rewrite !step_reverse. apply should_reverse_once, HR.
  - exists m'. split; [exact E|]. apply becomes_reverse. revert H. apply becomes_ext.
    intros i Hi. rewrite !get_reverse, Hn. reflexivity.
Qed.

Lemma add_vv_ok x v1 v2 m : vstep v2 <> 0 -> vsize v1 = vsize v2 -> safe v1 v2 ->
  typed (K:=K) v1 -> typed (K:=K) v2 ->
  exists m', add_vv x v1 v2 m = Some m' /\
    becomes v2 m m' (fun i => kadd (get m v2 i) (kmul x (get m v1 i))).
Proof.
  intros Hs Hn Hsafe T1 T2. unfold add_vv. destruct (vconj v2) eqn:Hc.
  2:{ apply add_vv_nc; auto. }
  remember 2%nat as k'. cbn [add_vv_fuel].
  destruct (Z.ltb_spec 0 (vsize v2)) as [Hp|Hp]; cbn [andb].
  2:{ eexists. split; [reflexivity|]. apply empty_becomes. lia. }
  destruct (keqb x k0) eqn:E0; cbn [negb].
  { eexists. split; [reflexivity|]. apply add_vv_zero. apply (keqb_eq K), E0. }
  destruct (same_as v2 v1) eqn:ES; [apply add_vv_same; auto|].
  rewrite Hc. subst k'.
  destruct (add_vv_nc 0 (cj x) (v_conjugate v1) (v_conjugate v2) m) as (m' & E & H); auto.
  - apply conj_flag_off; auto.
  - exists m'. split; [exact E|]. apply becomes_conj; auto. revert H. apply becomes_ext.
    intros i Hi. rewrite !get_conj by auto. rewrite cj_add, cj_mul. reflexivity.
Qed.

(** ** v3 = x1*v1 + x2*v2 *)
Definition disjoint v1 v2 : Prop := forall a, in_view v1 a -> ~ in_view v2 a.
(** No common element, or the same elements in the same order. *)
Definition alias_ok v w : Prop := disjoint v w \/ (vptr v = vptr w /\ vstep v = vstep w).

Lemma alias_ok_safe v w : vsize v = vsize w -> vstep w <> 0 -> alias_ok v w -> safe v w.
Proof.
  intros Hn Hs [D|[E1 E2]] i j Hi Hj Hij E.
  - apply (D (addr w i)); [rewrite E; exists j|exists i]; split; auto; lia.
  - unfold addr in E. rewrite E1, E2 in E. assert ((i - j) * vstep w = 0) by lia. nia.
Qed.
Lemma disjoint_safe v w : vsize v = vsize w -> disjoint v w -> safe v w.
Proof.
  intros Hn D i j Hi Hj Hij E.
  apply (D (addr w i)); [rewrite E; exists j|exists i]; split; auto; lia.
Qed.
Lemma get_unchanged m m' v w i : 0 <= i < vsize v -> disjoint v w -> same_outside w m m' ->
  get m' v i = get m v i.
Proof.
  intros Hi D H. unfold get. rewrite (H (addr v i)); auto. apply D. exists i. auto.
Qed.

Definition fresh (tmp n : Z) v : Prop := forall i, 0 <= i < vsize v -> ~ (tmp <= addr v i < tmp + n).

Lemma fresh_disjoint tmp n c b v : fresh tmp n v -> disjoint v (mkView tmp n 1 c b).
Proof.
  intros F a [i [Hi ->]] [j [Hj E]]. apply (F i Hi). cbn [vsize] in Hj. unfold addr in *.
  cbn [vptr vstep] in E. lia.
Qed.
Lemma disjoint_sym v w : disjoint v w -> disjoint w v.
Proof. intros D a Ha Hb. apply (D a); auto. Qed.

Lemma add_vvv_ok tmp x1 v1 x2 v2 v3 m :
  vstep v3 <> 0 -> vsize v1 = vsize v3 -> vsize v2 = vsize v3 ->
  typed (K:=K) v1 -> typed (K:=K) v2 -> typed (K:=K) v3 ->
  (alias_ok v1 v3 /\ alias_ok v2 v3 \/ vptr v1 = vptr v3 /\ vptr v2 = vptr v3) ->
  fresh tmp (vsize v3) v1 -> fresh tmp (vsize v3) v2 -> fresh tmp (vsize v3) v3 ->
  exists m', add_vvv tmp x1 v1 x2 v2 v3 m = Some m' /\
    (forall i, 0 <= i < vsize v3 ->
       get m' v3 i = kadd (kmul x1 (get m v1 i)) (kmul x2 (get m v2 i))) /\
    (forall a, ~ in_view v3 a -> ~ (tmp <= a < tmp + vsize v3) -> m' a = m a).
Proof.
  intros Hs N1 N2 T1 T2 T3 A F1 F2 F3. unfold add_vvv, same_storage.
  destruct (Z.ltb_spec 0 (vsize v3)) as [Hp|Hp].
  2:{ exists m. split; [reflexivity|]. split; [intros; lia|auto]. }
  assert (NS : forall v, vsize v = vsize v3 -> vptr v = vptr v3 -> ~ disjoint v v3).
  { intros v Hv E D. apply (D (addr v 0)); exists 0; split; try lia; unfold addr; lia. }
  destruct (Z.eqb_spec (vptr v1) (vptr v3)) as [P1|P1];
    [destruct (Z.eqb_spec (vptr v2) (vptr v3)) as [P2|P2]|].
  - set (t := mkView tmp (vsize v3) 1 false (kcplx K)).
    assert (Tt : typed (K:=K) t) by reflexivity.
    assert (Dt1 : disjoint v1 t) by (apply fresh_disjoint; auto).
    assert (Dt2 : disjoint v2 t) by (apply fresh_disjoint; auto).
    assert (Dt3 : disjoint v3 t) by (apply fresh_disjoint; auto).
    destruct (mult_xvv_ok x2 v2 t m) as (ma & Ea & Ha1 & Ha2); auto; [discriminate|apply disjoint_safe; auto|].
    rewrite Ea. cbn [obind].
    destruct (add_vv_ok x1 v1 t ma) as (mb & Eb & Hb1 & Hb2); auto; [discriminate|apply disjoint_safe; auto|].
    rewrite Eb. cbn [obind].
    destruct (copy_ok t v3 mb) as (mc & Ec & Hc1 & Hc2); auto;
      [apply disjoint_safe; auto; apply disjoint_sym; auto|].
    exists mc. split; [exact Ec|]. split.
    + intros i Hi. rewrite Hc1, Hb1, Ha1 by auto.
      rewrite (get_unchanged m ma v1 t) by (auto; lia). ring.
    + intros a Ha Hf. rewrite Hc2 by auto.
      assert (Hnt : ~ in_view t a).
      { intros [i [Hi E]]. apply Hf. unfold t, addr in *. cbn [vptr vstep vsize] in *. lia. }
      rewrite Hb2, Ha2; auto.
  - destruct A as [[A1 A2]|[_ ?]]; [|contradiction].
    assert (D2 : disjoint v2 v3) by (destruct A2 as [D|[E _]]; [exact D|contradiction]).
    destruct (mult_xvv_ok x1 v1 v3 m) as (ma & Ea & Ha1 & Ha2); auto; [apply alias_ok_safe; auto|].
    rewrite Ea. cbn [obind].
    destruct (add_vv_ok x2 v2 v3 ma) as (mb & Eb & Hb1 & Hb2); auto; [apply disjoint_safe; auto|].
    exists mb. split; [exact Eb|]. split.
    + intros i Hi. rewrite Hb1, Ha1 by auto. rewrite (get_unchanged m ma v2 v3) by (auto; lia). ring.
    + intros a Ha _. rewrite Hb2, Ha2; auto.
  - destruct A as [[A1 A2]|[? _]]; [|contradiction].
    assert (D1 : disjoint v1 v3) by (destruct A1 as [D|[E _]]; [exact D|contradiction]).
    destruct (mult_xvv_ok x2 v2 v3 m) as (ma & Ea & Ha1 & Ha2); auto; [apply alias_ok_safe; auto|].
    rewrite Ea. cbn [obind].
    destruct (add_vv_ok x1 v1 v3 ma) as (mb & Eb & Hb1 & Hb2); auto; [apply disjoint_safe; auto|].
    exists mb. split; [exact Eb|]. split.
    + intros i Hi. rewrite Hb1, Ha1 by auto. rewrite (get_unchanged m ma v1 v3) by (auto; lia). ring.
    + intros a Ha _. rewrite Hb2, Ha2; auto.
Qed.

End P.
