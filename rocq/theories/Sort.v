(** Vector sorting: VectorView::sort with a permutation (src/TMV_Vector.cpp
    1162-1208, 1255-1282) and ConvertIndexToPermute (src/TMV_ConvertIndex.h). *)
From Coq Require Import List Arith Lia Bool Permutation.
From Verif Require Import Base Perm PermSpec PermProofs.
Import ListNotations.

(** Writing p[i] = x through a raw pointer or vector::operator[]. *)
Definition wr {A} (l : list A) (i : nat) (x : A) : outcome (list A) :=
  if i <? length l then Ok (upd l i x) else UB.

(** One iteration of the second loop of ConvertIndexToPermute,
    src/TMV_ConvertIndex.h:44-55; the state is (P, currIndex, origIndex). *)
Definition convert_step (newIndex : list nat) (i : nat) (s : list nat * list nat * list nat)
  : outcome (list nat * list nat * list nat) :=
  let '(P, curr, orig) := s in
  do j <- rd newIndex i;
  do ip <- rd curr j;
  do P' <- wr P i ip;
  if i =? ip then Ok (P', curr, orig)
  else
    do origi <- rd orig i;
    do origip <- rd orig ip;
    do c1 <- wr curr origi ip;
    do c2 <- wr c1 origip i;
    do o1 <- wr orig i origip;
    do o2 <- wr o1 ip origi;
    Ok (P', c2, o2).

(** ConvertIndexToPermute(n,newIndex,P), src/TMV_ConvertIndex.h:31-56; [buf] is
    the contents of the P buffer on entry. *)
Definition convert_index (n : nat) (newIndex buf : list nat) : outcome (list nat) :=
  do s <- for_up n 0 (convert_step newIndex) (buf, seq 0 n, seq 0 n);
  Ok (fst (fst s)).

Inductive adtype := Ascend | Descend.

(** VTIndex's key: comp selects TMV_REAL / TMV_ABS / TMV_IMAG / TMV_ARG (the
    function [key]); Descend negates it.  src/TMV_Vector.cpp:1175-1197. *)
Definition vt_key {A K} (key : A -> K) (neg : K -> K) (ad : adtype) (x : A) : K :=
  match ad with Ascend => key x | Descend => neg (key x) end.

(** VectorView::sort(p,ad,comp) with p != 0, src/TMV_Vector.cpp:1264-1270, on
    the vector's elements.  [stdsort] is std::sort on the VTIndex array. *)
Definition sort_p {A K} (key : A -> K) (neg : K -> K) (ltK : K -> K -> bool)
  (stdsort : (K * nat -> K * nat -> bool) -> list (K * nat) -> list (K * nat))
  (ad : adtype) (buf : list nat) (v : list A) : outcome (list nat * list A) :=
  let newindex := combine (map (vt_key key neg ad) v) (seq 0 (length v)) in
  let sorted := stdsort (fun a b => ltK (fst a) (fst b)) newindex in
  do P <- convert_index (length v) (map snd sorted) buf;
  do w <- do_permute P 0 (length v) v;
  Ok (P, w).

(** What the C++ standard promises of std::sort: given a strict weak order, a
    rearrangement in which no element is less than an earlier one; equal
    elements in any order. *)
Definition strict_weak {X} (lt : X -> X -> bool) : Prop :=
  (forall x, lt x x = false) /\
  (forall x y z, lt x y = true -> lt y z = true -> lt x z = true) /\
  (forall x y z, lt x y = false -> lt y z = false -> lt x z = false).

Definition no_inversion {X} (lt : X -> X -> bool) (l : list X) : Prop :=
  forall i j x y, i < j -> nth_error l i = Some x -> nth_error l j = Some y -> lt y x = false.

Definition std_sort_contract {X} (srt : (X -> X -> bool) -> list X -> list X) : Prop :=
  forall lt l, strict_weak lt -> Permutation l (srt lt l) /\ no_inversion lt (srt lt l).

(** ** Proofs *)

Lemma wr_ok {A} (l : list A) i x : i < length l -> wr l i x = Ok (upd l i x).
Proof. intro H. unfold wr. rewrite (proj2 (Nat.ltb_lt _ _) H). reflexivity. Qed.

Lemma rd_ok {A} (l : list A) i x : nth_error l i = Some x -> rd l i = Ok x.
Proof. intro H. unfold rd. rewrite H. reflexivity. Qed.

Lemma nth_upd_eq {A} (l : list A) i x : i < length l -> nth_error (upd l i x) i = Some x.
Proof.
  intro H. rewrite nth_error_upd. rewrite Nat.eqb_refl.
  rewrite (proj2 (Nat.ltb_lt _ _) H). reflexivity.
Qed.

Lemma nth_upd_neq {A} (l : list A) i k x : k <> i -> nth_error (upd l i x) k = nth_error l k.
Proof. intro H. rewrite nth_error_upd. destruct (Nat.eqb_spec i k); destruct (Nat.eqb_spec k i); try congruence; reflexivity. Qed.

Record cinv (n : nat) (idx buf : list nat) (i : nat) (s : list nat * list nat * list nat) : Prop := {
  ci_i : i <= n;
  ci_P : length (fst (fst s)) = length buf;
  ci_c : length (snd (fst s)) = n;
  ci_o : length (snd s) = n;
  ci_oc : forall k o, nth_error (snd s) k = Some o -> nth_error (snd (fst s)) o = Some k;
  ci_co : forall k c, nth_error (snd (fst s)) k = Some c -> nth_error (snd s) c = Some k;
  ci_done : forall k, k < i -> nth_error (snd s) k = nth_error idx k;
  ci_legal : forall k, k < i -> exists x, nth_error (fst (fst s)) k = Some x /\ k <= x < n;
  ci_down : forall k, k < n -> nth_error (snd s) k = Some (downr (pfun (fst (fst s))) 0 i k)
}.

Lemma nth_error_Some_lt {A} (l : list A) i x : nth_error l i = Some x -> i < length l.
Proof. intro H. apply nth_error_Some. congruence. Qed.

Lemma convert_step_ok n idx buf i s :
  Permutation (seq 0 n) idx -> n <= length buf -> i < n ->
  cinv n idx buf i s ->
  exists s', convert_step idx i s = Ok s' /\ cinv n idx buf (i + 1) s'.
Proof.
  intros HP Hbuf Hi C. destruct s as [[P curr] orig]. destruct C. simpl in *.
  assert (Lidx : length idx = n) by (rewrite <- (Permutation_length HP); apply seq_length).
  assert (ND : NoDup idx) by (apply (Permutation_NoDup HP), seq_NoDup).
  destruct (nth_error_lt idx i ltac:(lia)) as [j Hj].
  assert (Hjn : j < n).
  { apply nth_error_In in Hj. apply (Permutation_in _ (Permutation_sym HP)) in Hj.
    apply in_seq in Hj. lia. }
  destruct (nth_error_lt curr j ltac:(lia)) as [ip Hip].
  pose proof (ci_co0 _ _ Hip) as Hoip.
  assert (Hipn : ip < n) by (apply nth_error_Some_lt in Hoip; lia).
  assert (Hge : i <= ip).
  { destruct (le_lt_dec i ip) as [X|X]; auto. exfalso.
    rewrite (ci_done0 ip X) in Hoip.
    assert (E : ip = i).
    { apply (proj1 (NoDup_nth_error idx) ND); [lia|congruence]. }
    lia. }
  unfold convert_step. rewrite (rd_ok _ _ _ Hj). cbn [bindO].
  rewrite (rd_ok _ _ _ Hip). cbn [bindO].
  rewrite wr_ok by lia. cbn [bindO].
  assert (LegP : forall k, k < i + 1 -> exists x, nth_error (upd P i ip) k = Some x /\ k <= x < n).
  { intros k Hk. destruct (Nat.eq_dec k i) as [->|Hne].
    - exists ip. rewrite nth_upd_eq by lia. split; [reflexivity|lia].
    - rewrite nth_upd_neq by auto. apply ci_legal0. lia. }
  assert (Down : forall k, downr (pfun (upd P i ip)) 0 (i + 1) k = downr (pfun P) 0 i (tr i ip k)).
  { intro k. rewrite Nat.add_1_r. cbn [downr]. rewrite Nat.add_0_l.
    assert (E : pfun (upd P i ip) i = ip) by (apply nth_error_pfun, nth_upd_eq; lia).
    rewrite E. apply downr_ext. intros t Ht.
    destruct (ci_legal0 t ltac:(lia)) as [x [Hx _]].
    rewrite (nth_error_pfun _ _ _ Hx). apply nth_error_pfun.
    rewrite nth_upd_neq by lia. exact Hx. }
  destruct (Nat.eqb_spec i ip) as [E|Hne].
  - eexists. split; [reflexivity|]. subst ip. constructor; simpl; auto.
    + lia.
    + rewrite upd_length. auto.
    + intros k Hk. destruct (Nat.eq_dec k i) as [->|Hk']; [congruence|].
      apply ci_done0. lia.
    + intros k Hk. rewrite Down, tr_same. auto.
  - destruct (nth_error_lt orig i ltac:(lia)) as [oi Hoi].
    pose proof (ci_oc0 _ _ Hoi) as Hcoi.
    assert (Hoin : oi < n) by (apply nth_error_Some_lt in Hcoi; lia).
    assert (Hoij : oi <> j) by congruence.
    rewrite (rd_ok _ _ _ Hoi). cbn [bindO].
    rewrite (rd_ok _ _ _ Hoip). cbn [bindO].
    rewrite wr_ok by lia. cbn [bindO].
    rewrite wr_ok by (rewrite upd_length; lia). cbn [bindO].
    rewrite wr_ok by lia. cbn [bindO].
    rewrite wr_ok by (rewrite upd_length; lia). cbn [bindO].
    eexists. split; [reflexivity|].
    assert (No : forall k, nth_error (upd (upd orig i j) ip oi) k = nth_error orig (tr i ip k)).
    { intro k. tr_cases.
      - rewrite nth_upd_neq by lia. rewrite nth_upd_eq by lia. congruence.
      - rewrite nth_upd_eq by (rewrite upd_length; lia). congruence.
      - rewrite !nth_upd_neq by auto. reflexivity. }
    assert (Nc : forall k, nth_error (upd (upd curr oi ip) j i) k =
                  match nth_error curr k with Some c => Some (tr i ip c) | None => None end).
    { intro k. destruct (Nat.eq_dec k j) as [->|Hkj].
      - rewrite nth_upd_eq by (rewrite upd_length; lia). rewrite Hip. f_equal. tr_cases; lia.
      - rewrite nth_upd_neq by auto. destruct (Nat.eq_dec k oi) as [->|Hko].
        + rewrite nth_upd_eq by lia. rewrite Hcoi. f_equal. tr_cases; lia.
        + rewrite nth_upd_neq by auto. destruct (nth_error curr k) as [c|] eqn:Hc; auto.
          f_equal. pose proof (ci_co0 _ _ Hc) as X. tr_cases; congruence. }
    constructor; simpl; auto.
    + lia.
    + rewrite upd_length. auto.
    + rewrite !upd_length. auto.
    + rewrite !upd_length. auto.
    + intros k o Ho. rewrite No in Ho. rewrite Nc. rewrite (ci_oc0 _ _ Ho).
      rewrite tr_invol. reflexivity.
    + intros k c Hc. rewrite Nc in Hc. destruct (nth_error curr k) as [c0|] eqn:Hc0; [|discriminate].
      injection Hc as <-. rewrite No, tr_invol. auto.
    + intros k Hk. rewrite No. destruct (Nat.eq_dec k i) as [->|Hk'].
      * replace (tr i ip i) with ip by (tr_cases; lia). congruence.
      * replace (tr i ip k) with k by (tr_cases; lia). apply ci_done0. lia.
    + intros k Hk. rewrite No, Down. apply ci_down0. apply tr_lt; auto.
Qed.

Lemma convert_index_ok n idx buf :
  Permutation (seq 0 n) idx -> n <= length buf ->
  exists P, convert_index n idx buf = Ok P /\ length P = length buf /\
    (forall k, k < n -> exists x, nth_error P k = Some x /\ k <= x < n) /\
    (forall k, k < n -> nth_error idx k = Some (downr (pfun P) 0 n k)).
Proof.
  intros HP Hbuf. unfold convert_index.
  destruct (for_up_inv (fun i s => cinv n idx buf i s) n 0 (convert_step idx) (buf, seq 0 n, seq 0 n))
    as [[[P c] o] [E C]].
  - constructor; simpl; auto; try apply seq_length; try lia.
    + intros k o Ho. assert (k < n) by (apply nth_error_Some_lt in Ho; rewrite seq_length in Ho; auto).
      rewrite nth_error_seq in Ho by auto. injection Ho as <-. rewrite nth_error_seq by auto. auto.
    + intros k o Ho. assert (k < n) by (apply nth_error_Some_lt in Ho; rewrite seq_length in Ho; auto).
      rewrite nth_error_seq in Ho by auto. injection Ho as <-. rewrite nth_error_seq by auto. auto.
    + intros k Hk. apply nth_error_seq. auto.
  - intros i s Hi C. apply (convert_step_ok n idx buf); auto. lia.
  - rewrite E. cbn [bindO fst]. exists P. destruct C. simpl in *.
    split; [reflexivity|]. split; [auto|]. split; [auto|].
    intros k Hk. rewrite <- ci_done0 by auto. apply ci_down0. auto.
Qed.

(** Pulling a key comparison back along a projection. *)
Lemma strict_weak_proj {X Y} (f : X -> Y) (lt : Y -> Y -> bool) :
  strict_weak lt -> strict_weak (fun a b => lt (f a) (f b)).
Proof.
  intros (H1 & H2 & H3). split; [auto|]. split; intros x y z; eauto.
Qed.

Lemma in_combine_seq {A} (l : list A) x i :
  In (x, i) (combine l (seq 0 (length l))) -> nth_error l i = Some x.
Proof.
  assert (G : forall m, In (x, i) (combine l (seq m (length l))) ->
            m <= i /\ nth_error l (i - m) = Some x).
  { induction l as [|a l IH]; simpl; intros m H; [tauto|].
    destruct H as [H|H].
    - injection H as -> ->. rewrite Nat.sub_diag. auto.
    - destruct (IH _ H) as [Hm Hn]. split; [lia|].
      replace (i - m) with (S (i - S m)) by lia. exact Hn. }
  intro H. destruct (G 0 H) as [_ E]. rewrite Nat.sub_0_r in E. exact E.
Qed.

Lemma map_snd_combine {A B} (l : list A) (l' : list B) :
  length l = length l' -> map snd (combine l l') = l'.
Proof. revert l'. induction l; destruct l'; simpl; intros; try lia; auto. f_equal. auto. Qed.

Theorem sort_p_ok {A K} (key : A -> K) neg ltK stdsort ad buf (v : list A) :
  strict_weak ltK -> std_sort_contract stdsort -> length v <= length buf ->
  exists P w, sort_p key neg ltK stdsort ad buf v = Ok (P, w) /\
    length P = length buf /\
    (forall k, k < length v -> exists x, nth_error P k = Some x /\ k <= x < length v) /\
    perm_apply (mkPerm (length v) P false) v = Ok w /\
    Permutation v w /\
    no_inversion (fun a b => ltK (vt_key key neg ad a) (vt_key key neg ad b)) w.
Proof.
  intros HW HS Hbuf. unfold sort_p.
  set (keys := map (vt_key key neg ad) v).
  assert (Lk : length keys = length v) by apply map_length.
  set (ni := combine keys (seq 0 (length v))).
  set (lt := fun a b : K * nat => ltK (fst a) (fst b)).
  destruct (HS lt ni) as [Hp Hs]; [apply (strict_weak_proj fst ltK HW)|].
  set (srt := stdsort lt ni) in *.
  assert (HP : Permutation (seq 0 (length v)) (map snd srt)).
  { rewrite <- (map_snd_combine keys (seq 0 (length v))) by (rewrite seq_length; auto).
    apply Permutation_map. exact Hp. }
  destruct (convert_index_ok (length v) (map snd srt) buf HP Hbuf) as [P [EP [LP [Leg Dn]]]].
  rewrite EP. cbn [bindO].
  set (p := mkPerm (length v) P false).
  assert (HL : legal p) by exact Leg.
  destruct (perm_apply_ok p v (legal_in_range _ HL) eq_refl) as [w [Ew [Lw Nw]]].
  assert (Ew' : do_permute P 0 (length v) v = Ok w) by exact Ew.
  rewrite Ew'. cbn [bindO].
  exists P, w. split; [reflexivity|]. split; [exact LP|]. split; [exact Leg|].
  split; [exact Ew|]. split.
  - exact (perm_apply_Permutation p v w (legal_in_range _ HL) eq_refl Ew).
  - (* w[k] = v[snd srt[k]], and its key is fst srt[k] *)
    assert (Key : forall k x, nth_error w k = Some x ->
              exists e, nth_error srt k = Some e /\ fst e = vt_key key neg ad x).
    { intros k x Hx.
      assert (Hk : k < length v) by (apply nth_error_Some_lt in Hx; lia).
      rewrite Nw in Hx by exact Hk.
      assert (Hd := Dn k Hk). rewrite nth_error_map in Hd.
      destruct (nth_error srt k) as [e|] eqn:He; [|discriminate]. simpl in Hd.
      exists e. split; [reflexivity|].
      assert (Hin : In e ni).
      { apply (Permutation_in _ (Permutation_sym Hp)). eapply nth_error_In; eauto. }
      destruct e as [ek ei]. simpl in *. unfold ni in Hin. rewrite <- Lk in Hin.
      apply in_combine_seq in Hin.
      unfold keys in Hin. rewrite nth_error_map in Hin.
      unfold src in Hx. simpl in Hx. rewrite <- downr0 in Hx.
      injection Hd as Hd. rewrite <- Hd in Hx.
      rewrite Hx in Hin. simpl in Hin. congruence. }
    intros i j x y Hij Hx Hy.
    destruct (Key i x Hx) as [e1 [He1 <-]].
    destruct (Key j y Hy) as [e2 [He2 <-]].
    exact (Hs i j e1 e2 Hij He1 He2).
Qed.

(** ** sort without a permutation *)

(** Compare<T>, src/TMV_Vector.cpp:1210-1253. *)
Definition compare {A K} (key : A -> K) (ltK : K -> K -> bool) (ad : adtype) (x y : A) : bool :=
  match ad with Ascend => ltK (key x) (key y) | Descend => ltK (key y) (key x) end.

Definition flip_ad (ad : adtype) := match ad with Ascend => Descend | Descend => Ascend end.

(** VectorView::sort(0,ad,comp), src/TMV_Vector.cpp:1271-1280: std::sort on the
    raw range ptr()..ptr()+size(); the step is not consulted.  [mem] is the whole
    allocation, ptr() = mem + off.  [keyconj] says comp is ImagComp or ArgComp. *)
Definition sort_0 {A K} (key : A -> K) (ltK : K -> K -> bool)
  (stdsort : (A -> A -> bool) -> list A -> list A)
  (ad : adtype) (keyconj conj : bool) (off n : nat) (mem : list A) : outcome (list A) :=
  let ad' := if conj && keyconj then flip_ad ad else ad in
  if off + n <=? length mem then
    Ok (firstn off mem ++ stdsort (compare key ltK ad') (firstn n (skipn off mem))
        ++ skipn (off + n) mem)
  else UB.

Lemma sort_0_ok {A K} (key : A -> K) ltK stdsort ad keyconj conj off n (mem : list A) :
  strict_weak ltK -> std_sort_contract stdsort -> off + n <= length mem ->
  exists mem', sort_0 key ltK stdsort ad keyconj conj off n mem = Ok mem' /\
    length mem' = length mem /\
    firstn off mem' = firstn off mem /\ skipn (off + n) mem' = skipn (off + n) mem /\
    Permutation (firstn n (skipn off mem)) (firstn n (skipn off mem')) /\
    no_inversion (compare key ltK (if conj && keyconj then flip_ad ad else ad))
      (firstn n (skipn off mem')).
Proof.
  intros HW HS Hb. unfold sort_0. rewrite (proj2 (Nat.leb_le _ _) Hb).
  set (ad' := if conj && keyconj then flip_ad ad else ad).
  assert (HW' : strict_weak (compare key ltK ad')).
  { destruct HW as (W1 & W2 & W3). unfold compare. destruct ad'; split; eauto; split; intros x y z; eauto. }
  set (seg := firstn n (skipn off mem)).
  assert (Ls : length seg = n).
  { unfold seg. rewrite firstn_length, skipn_length. lia. }
  destruct (HS (compare key ltK ad') seg HW') as [Hp Hn].
  set (srt := stdsort (compare key ltK ad') seg) in *.
  assert (Lr : length srt = n) by (rewrite <- (Permutation_length Hp); auto).
  assert (L1 : length (firstn off mem) = off) by (rewrite firstn_length; lia).
  eexists. split; [reflexivity|].
  assert (E1 : skipn off (firstn off mem ++ srt ++ skipn (off + n) mem) = srt ++ skipn (off + n) mem).
  { rewrite skipn_app, L1, Nat.sub_diag. rewrite skipn_all2 by lia. reflexivity. }
  assert (E2 : firstn n (srt ++ skipn (off + n) mem) = srt).
  { rewrite firstn_app, Lr, Nat.sub_diag. rewrite firstn_all2 by lia.
    simpl. apply app_nil_r. }
  rewrite E1, E2. split; [|split; [|split; [|split; auto]]].
  - rewrite !app_length, skipn_length, Lr, L1. lia.
  - rewrite firstn_app, L1, Nat.sub_diag. rewrite firstn_all2 by lia. simpl. apply app_nil_r.
  - rewrite app_assoc. rewrite skipn_app.
    assert (L2 : length (firstn off mem ++ srt) = off + n) by (rewrite app_length; lia).
    rewrite L2, Nat.sub_diag. rewrite skipn_all2 by lia. reflexivity.
Qed.

(** An implementation that meets the contract, for non-vacuity. *)
Fixpoint insert {X} (lt : X -> X -> bool) (x : X) (l : list X) : list X :=
  match l with
  | [] => [x]
  | y :: t => if lt y x then y :: insert lt x t else x :: l
  end.
Fixpoint isort {X} (lt : X -> X -> bool) (l : list X) : list X :=
  match l with [] => [] | x :: t => insert lt x (isort lt t) end.

Lemma insert_perm {X} (lt : X -> X -> bool) x l : Permutation (x :: l) (insert lt x l).
Proof.
  induction l as [|y t IH]; simpl; auto. destruct (lt y x); auto.
  rewrite perm_swap. constructor. exact IH.
Qed.
Lemma isort_perm {X} (lt : X -> X -> bool) l : Permutation l (isort lt l).
Proof. induction l; simpl; auto. rewrite <- insert_perm. constructor. auto. Qed.

Lemma no_inversion_cons {X} (lt : X -> X -> bool) x l :
  no_inversion lt (x :: l) <-> (forall y, In y l -> lt y x = false) /\ no_inversion lt l.
Proof.
  split.
  - intro H. split.
    + intros y Hy. apply In_nth_error in Hy. destruct Hy as [k Hk].
      exact (H 0 (S k) x y ltac:(lia) eq_refl Hk).
    + intros i j a b Hij Ha Hb. exact (H (S i) (S j) a b ltac:(lia) Ha Hb).
  - intros [H1 H2] i j a b Hij Ha Hb. destruct j as [|j]; [lia|]. destruct i as [|i]; simpl in *.
    + injection Ha as <-. apply H1. eapply nth_error_In; eauto.
    + exact (H2 i j a b ltac:(lia) Ha Hb).
Qed.

Lemma insert_sorted {X} (lt : X -> X -> bool) x l :
  strict_weak lt -> no_inversion lt l -> no_inversion lt (insert lt x l).
Proof.
  intros (W1 & W2 & W3). induction l as [|y t IH]; simpl; intro H.
  - apply no_inversion_cons. split; auto. intros y [].
  - apply no_inversion_cons in H. destruct H as [H1 H2].
    destruct (lt y x) eqn:E.
    + apply no_inversion_cons. split; [|auto].
      intros z Hz. apply (Permutation_in _ (Permutation_sym (insert_perm lt x t))) in Hz.
      destruct Hz as [<-|Hz]; auto.
      destruct (lt x y) eqn:E2; auto. rewrite <- (W1 x). symmetry. eauto.
    + apply no_inversion_cons. split; [|apply no_inversion_cons; auto].
      intros z [<-|Hz]; auto. apply (W3 z y x); auto.
Qed.

Lemma isort_contract X : std_sort_contract (@isort X).
Proof.
  intros lt l HW. split; [apply isort_perm|].
  induction l; simpl.
  - intros i j x y Hij Hx. destruct i; discriminate.
  - apply insert_sorted; auto.
Qed.
