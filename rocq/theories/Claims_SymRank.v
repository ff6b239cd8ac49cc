(** Rank-1 and rank-k updates of symmetric and hermitian matrices (C35).  A symmetric view is
    a square matrix view [sa], of which one triangle is used, with the flags [sup] (the upper
    triangle) and [sh] (hermitian); [sget] reads element (i,j) through the view.  Block 0 is
    the user's memory. *)
From Coq Require Import ZArith Lia Bool List Ring Arith.
From Verif Require Import Base Scal MatMem MatVec MatVecProofs SymRank SymRankProofs SymRankK.
Open Scope Z_scope.

(** The elements (i,j) the view owns. *)
Definition owns (S : smat) (i j : nat) : Prop :=
  (i < acs (sa S))%nat /\ (j < acs (sa S))%nat /\ (if sup S then i <= j else j <= i)%nat.
(** conj(v) if the matrix is hermitian. *)
Definition bar {K : scal} (S : smat) (v : K) : K := if sh S then cj v else v.
(** A square view inside block 0 whose places are distinct. *)
Definition good (K : scal) (S : smat) : Prop :=
  ars (sa S) = acs (sa S) /\ minj (sa S) /\ ab (sa S) = 0%nat /\ cjok K (acj (sa S)).
(** A hermitian update of a hermitian matrix: the scalar and, if it is kept, the old diagonal
    are real; the real part of a number equal to its conjugate is that number. *)
Definition herm_data {K : scal} (add : bool) (alpha : K) (S : smat) (m : hmem K) : Prop :=
  sh S = true -> kcplx K = true ->
  (forall a : K, cj a = a -> kre a = a) /\ cj alpha = alpha /\
  (add = true -> forall i, (i < acs (sa S))%nat -> cj (sget m S i i) = sget m S i i).
(** The view's new elements are (old +) v, and nothing else in the user's memory changes. *)
Definition updated {K : scal} (add : bool) (v : nat -> nat -> K) (S : smat) (m m2 : hmem K) : Prop :=
  (forall i j, (i < acs (sa S))%nat -> (j < acs (sa S))%nat ->
     sget m2 S i j = kadd (if add then sget m S i j else k0) (v i j)) /\
  (forall l, fst l = 0%nat -> (forall i j, owns S i j -> l <> mloc (sa S) i j) -> m2 l = m l).

Section Bridge.
Context {K : scal}.
Lemma hc_bar (S : smat) (v : K) : hc (isherm (K:=K) S) v = bar S v.
Proof.
  unfold hc, isherm, bar. destruct (kcplx K) eqn:E; cbn; [reflexivity|].
  destruct (sh S); [reflexivity|]. apply cj_real_type; auto.
Qed.
Lemma herm_hermok (add : bool) (alpha : K) S m : herm_data add alpha S m -> hermok add alpha S m.
Proof.
  intros H E. apply andb_true_iff in E. destruct E as [E1 E2]. apply H; auto.
  revert E1. unfold isherm. rewrite E2. auto.
Qed.
Lemma good_tinj S : good K S -> tinj (lowview S).
Proof.
  intros (SQ & I & _) i j i' j' Hj Hi Hj' Hi' E. unfold lowview in *. destruct (sup S).
  - cbn [tr acs] in Hi, Hi'. rewrite !mloc_tr in E. destruct (I j i j' i'); auto; lia.
  - destruct (I i j i' j'); auto; lia.
Qed.
Lemma upd_updated (add : bool) (v w : nat -> nat -> K) S m m2 :
  upd_post add v S m m2 -> (forall i j, v i j = w i j) -> updated add w S m m2.
Proof.
  intros [P Q] H. split.
  - intros i j Hi Hj. rewrite P, H; auto.
  - intros l L0 Hl. apply Q; auto. intros (i & j & St & Hi & Hj & E). apply (Hl i j); auto.
    unfold owns, stored in *. destruct (sup S); apply Nat.leb_le in St; auto.
Qed.
(** A place of the stored triangle. *)
Lemma tri_owns S l : ars (sa S) = acs (sa S) -> tri (lowview S) l -> exists i j, owns S i j /\ l = mloc (sa S) i j.
Proof.
  intros SQ (i & j & Hj & Hi & ->). unfold lowview, owns in *. destruct (sup S).
  - cbn [tr acs] in Hi. rewrite mloc_tr. exists j, i. repeat split; auto; lia.
  - exists i, j. repeat split; auto; lia.
Qed.
End Bridge.

(** ** Rank 1 *)

(** Where x may lie: off the stored elements; or anywhere if its step is not 1 (it is copied
    first); or it is the first row or the first column of the square, or the last line of the
    stored triangle. *)
Definition x_ok (x : vec) (S : smat) : Prop :=
  let N := acs (sa S) in
  (forall k i j, (k < N)%nat -> owns S i j -> vloc x k <> mloc (sa S) i j) \/
  vst x <> 1 \/
  (forall k, vloc x k = mloc (sa S) k 0) \/ (forall k, vloc x k = mloc (sa S) 0 k) \/
  (forall k, vloc x k = if sup S then mloc (sa S) k (N - 1) else mloc (sa S) (N - 1) k).

Lemma x_ok_ssafe {K : scal} (x : vec) (S : smat) : good K S -> vs x = acs (sa S) -> x_ok x S -> vst x = 1 -> ssafe x (lowview S).
Proof.
  intros (SQ & I & _) Sx H H1.
  set (A := lowview S).
  assert (NA : acs A = acs (sa S)) by (unfold A, lowview; destruct (sup S); cbn; auto).
  assert (IA : forall i j i' j', (i < acs A)%nat -> (j < acs A)%nat -> (i' < acs A)%nat -> (j' < acs A)%nat ->
     mloc A i j = mloc A i' j' -> i = i' /\ j = j').
  { rewrite NA. unfold A, lowview. intros i j i' j' Hi Hj Hi' Hj'. destruct (sup S).
    - rewrite !mloc_tr. intro E. destruct (I j i j' i'); auto; lia.
    - intro E. apply (I i j i' j'); auto; lia. }
  assert (H' : (forall k i j, (k < acs A)%nat -> (j <= i)%nat -> (i < acs A)%nat -> vloc x k <> mloc A i j) \/
     (forall k, vloc x k = mloc A k 0) \/ (forall k, vloc x k = mloc A 0 k) \/ (forall k, vloc x k = mloc A (acs A - 1) k)).
  { rewrite NA. destruct H as [H|[H|[H|[H|H]]]]; [left| |right|right|right]; [|contradiction| | |].
    - intros k i j Hk Hj Hi E. assert (T : tri A (mloc A i j)) by (exists i, j; repeat split; auto; lia).
      apply (tri_owns S) in T; auto. destruct T as (a & b & Ho & E2). apply (H k a b Hk Ho). congruence.
    - unfold A, lowview. destruct (sup S); [right; left|left]; intro k; rewrite ?mloc_tr; auto.
    - unfold A, lowview. destruct (sup S); [left|right; left]; intro k; rewrite ?mloc_tr; auto.
    - unfold A, lowview. right; right. intro k. destruct (sup S); rewrite ?mloc_tr; auto. }
  rewrite <- NA in Sx. clearbody A. clear H I SQ NA S.
  destruct H' as [H|[H|[H|H]]].
  - split; intros; intros k i j Hk Hj Hi E; exfalso; apply (H k i j); auto; lia.
  - assert (S1 : asi A = 1).
    { assert (E0 := H 0%nat). assert (E1 := H 1%nat). unfold vloc, mloc in E0, E1. apply (f_equal snd) in E0, E1. cbn [snd] in E0, E1. lia. }
    split.
    + intros [R|R].
      * intros k i j Hk Hj Hi E. destruct (Nat.ltb_spec 1 (acs A)) as [N2|N2]; [|left; lia].
        exfalso. apply Z.eqb_eq in R. destruct (IA 0%nat 1%nat 1%nat 0%nat); try lia.
        unfold mloc. f_equal. rewrite S1, R. lia.
      * unfold iscm in R. apply Z.eqb_neq in R. contradiction.
    + intros _ _ k i j Hk Hj Hi E. rewrite H in E. apply IA in E; lia.
  - split.
    + intros _ k i j Hk Hj Hi E. rewrite H in E. apply IA in E; lia.
    + intros _ _ k i j Hk Hj Hi E. rewrite H in E. apply IA in E; lia.
  - assert (S1 : asj A = 1).
    { assert (E0 := H 0%nat). assert (E1 := H 1%nat). unfold vloc, mloc in E0, E1. apply (f_equal snd) in E0, E1. cbn [snd] in E0, E1. lia. }
    split.
    + intros _ k i j Hk Hj Hi E. rewrite H in E. apply IA in E; lia.
    + intros R. unfold isrm in R. apply Z.eqb_neq in R. contradiction.
Qed.

Theorem C35_sym_rank1_partial (K : scal) (add : bool) (alpha : K) (x : vec) (S : smat) (m : hmem K) :
  good K S -> x_ok x S -> vb x = 0%nat -> vs x = acs (sa S) -> cjok K (vcj x) -> herm_data add alpha S m ->
  (* missing: S = 0 * (x^x), see C35_sym_zero_refuted *)
  (alpha = k0 -> add = true) ->
  exists m2, SRank1Update add alpha x S m = Some m2 /\
    updated add (fun i j => kmul alpha (kmul (vget m x i) (bar S (vget m x j)))) S m m2.
Proof.
  intros G X Bx Sx Cx Hd Hz. assert (G' := G). destruct G' as (SQ & I & BA & CA).
  destruct (SRank1Update_spec add alpha x S m) as (m2 & E2 & P2); auto.
  - apply (good_tinj (K:=K)); auto.
  - apply (x_ok_ssafe (K:=K)); auto.
  - apply herm_hermok; auto.
  - exists m2. split; auto. refine (upd_updated _ _ _ _ _ _ P2 _). intros i j. unfold xyt. rewrite hc_bar. reflexivity.
Qed.
Print Assumptions C35_sym_rank1_partial.

(** A hermitian matrix stays hermitian: its elements satisfy a(j,i) = conj a(i,j), the diagonal
    included. *)
Theorem C35_sym_rank1_hermitian (K : scal) (add : bool) (alpha : K) (x : vec) (S : smat) (m : hmem K) m2 :
  good K S -> x_ok x S -> vb x = 0%nat -> vs x = acs (sa S) -> cjok K (vcj x) -> herm_data add alpha S m ->
  sh S = true -> kcplx K = true -> alpha <> k0 ->
  SRank1Update add alpha x S m = Some m2 ->
  forall i j, (i < acs (sa S))%nat -> (j < acs (sa S))%nat -> sget m2 S j i = cj (sget m2 S i j).
Proof.
  intros G X Bx Sx Cx Hd Hs Hc Ha E.
  destruct (C35_sym_rank1_partial K add alpha x S m) as (m3 & E3 & P & _); auto.
  rewrite E in E3. injection E3 as <-. intros i j Hi Hj.
  destruct (Hd Hs Hc) as (_ & A2 & A3).
  assert (R : forall z : hmem K, sget z S j i = cj (sget z S i j) \/ i = j).
  { intro z. destruct (Nat.eq_dec i j) as [->|Ne]; auto. left. rewrite sget_swap by auto. unfold isherm. rewrite Hs, orb_true_r. reflexivity. }
  destruct (R m2) as [R2|<-]; auto.
  rewrite P by auto. unfold bar. rewrite Hs, cj_add, !cj_mul, cj_cj, A2. f_equal.
  - destruct add; [symmetry; apply A3; auto|symmetry; apply cj_0].
  - f_equal. apply (Rmul_comm (kring K)).
Qed.
Print Assumptions C35_sym_rank1_hermitian.

Local Ltac locs := unfold minj, mloc, vloc in *; cbn [ab ap acs ars asi asj vb vp vs vst sa sup] in *;
  intros; try (let E := fresh in intro E); repeat match goal with E : (_, _) = (_, _) |- _ => apply (f_equal snd) in E; cbn [snd] in E end; lia.

(** A complex hermitian matrix, upper triangle, with x its own first row. *)
Example C35_sym_rank1_example :
  let S := mkS (mkMat 0 0 2 2 2 1 false) true true in
  let x := mkVec 0 0 2 1 true in
  let m : hmem ZC := fun l => (snd l + 1, if snd l =? 1 then 5 else 0) in
  good ZC S /\ x_ok x S /\ herm_data (K:=ZC) true (2, 0) S m /\
  exists m2, SRank1Update (K:=ZC) true (2, 0) x S m = Some m2 /\
    sget m2 S 0 1 = (6, 15) /\ sget m2 S 1 0 = (6, -15) /\ sget m2 S 1 1 = (62, 0).
Proof.
  cbn zeta. split; [|split; [|split]].
  - split; [reflexivity|]. split; [locs|]. split; [reflexivity|]. intro E; discriminate.
  - right; right; right; left. intro k. unfold vloc, mloc; cbn [vb vp vst ab ap asi asj sa]; f_equal; lia.
  - intros _ _. split; [|split].
    + intros [a b] E. cbn in *. injection E as E. f_equal. lia.
    + reflexivity.
    + intros _ i Hi. cbn in Hi. destruct (Nat.eq_dec i 0) as [->|]; [reflexivity|]. replace i with 1%nat by lia. reflexivity.
  - eexists. split; [vm_compute; reflexivity|]. vm_compute. auto.
Qed.

(** Finding: S = 0 * (x^x) leaves S as it was; Matrix = 0 * (x^y) sets it to zero. *)
Theorem C35_sym_zero_refuted :
  ~ (forall (x : vec) (S : smat) (m : hmem ZK),
       good ZK S -> x_ok x S -> vb x = 0%nat -> vs x = acs (sa S) -> vcj x = false -> sh S = false ->
       exists m2, SRank1Update false (0 : ZK) x S m = Some m2 /\
         updated (K:=ZK) false (fun i j => 0 * (vget m x i * vget m x j)) S m m2).
Proof.
  intro H.
  destruct (H (mkVec 0 10 1 1 false) (mkS (mkMat 0 0 1 1 1 1 false) false false) (fun _ => 7)) as (m2 & E & P & _); auto.
  - split; [reflexivity|]. split; [locs|]. split; [reflexivity|]. intro E; discriminate.
  - left. unfold owns. cbn. intros k i j Hk Ho. locs.
  - injection E as <-. specialize (P 0%nat 0%nat ltac:(cbn; lia) ltac:(cbn; lia)). vm_compute in P. discriminate.
Qed.
Print Assumptions C35_sym_zero_refuted.

(** Finding: x may be a column of the memory the symmetric view is laid over; the second one is overwritten
    while it is still needed. *)
Theorem C35_sym_alias_refuted :
  ~ (forall (x : vec) (S : smat) (m : hmem ZK),
       good ZK S -> (exists c, (c < acs (sa S))%nat /\ forall k, vloc x k = mloc (sa S) k c) ->
       vb x = 0%nat -> vs x = acs (sa S) -> vcj x = false -> sh S = false ->
       exists m2, SRank1Update true (1 : ZK) x S m = Some m2 /\
         updated (K:=ZK) true (fun i j => vget m x i * vget m x j) S m m2).
Proof.
  intro H.
  destruct (H (mkVec 0 2 2 1 false) (mkS (mkMat 0 0 2 2 1 2 false) false false) (fun _ => 2)) as (m2 & E & P & _); auto.
  - split; [reflexivity|]. split; [locs|]. split; [reflexivity|]. intro E; discriminate.
  - exists 1%nat. split; [cbn; lia|]. intro k. unfold vloc, mloc; cbn [vb vp vst ab ap asi asj sa]; f_equal; lia.
  - vm_compute in E. injection E as <-. specialize (P 1%nat 0%nat ltac:(cbn; lia) ltac:(cbn; lia)). vm_compute in P. discriminate.
Qed.
Print Assumptions C35_sym_alias_refuted.

(** ** Rank k *)

(** Element (i,j) of X * X^T, or of X times its adjoint. *)
Definition gram {K : scal} (S : smat) (m : hmem K) (X : mat) (i j : nat) : K :=
  sum (ars X) (fun k => kmul (mget m X i k) (bar S (mget m X j k))).

(** Where X may lie: off the stored elements; or it starts where S starts, with S's steps or those of the transpose
    (its own places being distinct even when it is widened to the width of S). *)
Definition X_ok (X : mat) (S : smat) : Prop :=
  let N := acs (sa S) in
  (forall a k i j, (a < N)%nat -> (k < ars X)%nat -> owns S i j -> mloc X a k <> mloc (sa S) i j) \/
  (ap X = ap (sa S) /\
   ((asi X = asi (sa S) /\ asj X = asj (sa S)) \/ (asi X = asj (sa S) /\ asj X = asi (sa S))) /\
   minj (mkMat 0 (ap X) N (Nat.max N (ars X)) (asi X) (asj X) false)).

(** The block sizes are those of the library: [bs], [bs2] = 64, 1, or TMV_BLOCKSIZE and half of it. *)
Theorem C35_sym_rankk_partial (K : scal) (bs bs2 : nat) (add : bool) (alpha : K) (X : mat) (S : smat) (m : hmem K) :
  (0 < bs)%nat -> (0 < bs2)%nat ->
  good K S -> X_ok X S -> ab X = 0%nat -> acs X = acs (sa S) -> cjok K (acj X) -> herm_data add alpha S m ->
  (* missing: without add, a zero factor or an X of no columns (C35_sym_zero_refuted) *)
  (alpha = k0 \/ ars X = 0%nat -> add = true) ->
  (* missing: without add, an X on S's own elements and wider than S (C35_sym_wide_refuted) *)
  (ap X = ap (sa S) -> (acs (sa S) < ars X)%nat -> add = true) ->
  (* missing: without add and with TMV_BLOCKSIZE > 3 given, an X that is not row major (C35_sym_blocksize_refuted) *)
  (bs2 = 1%nat \/ asj X = 1 \/ add = true) ->
  exists m2, SRankKUpdate bs bs2 add alpha X S m = Some m2 /\
    updated add (fun i j => kmul alpha (gram S m X i j)) S m m2.
Proof.
  intros B1 B2 G HX BX SX CX Hd Hz Hw Hb. assert (G' := G). destruct G' as (SQ & I & BA & CA).
  assert (NL : acs (lowview S) = acs (sa S)) by (unfold lowview; destruct (sup S); cbn; auto).
  destruct (SRankKUpdate_spec bs bs2 add alpha X S m) as (m2 & E2 & P2); auto.
  - destruct Hb as [Hb|[Hb|Hb]]; [left; auto|right; left|right; right; auto]. apply Z.eqb_eq. auto.
  - apply (good_tinj (K:=K)); auto.
  - destruct HX as [HX|(Ep & Es & Ei)]; [left|right].
    + intros a k Ha Hk T. apply (tri_owns S) in T; auto. destruct T as (i & j & Ho & E). apply (HX a k i j); auto. lia.
    + assert (L : lay X (sa S)).
      { destruct Es as [[E1 E2]|[E1 E2]]; [left|right]; intros; unfold mloc; rewrite BX, BA, Ep, E1, E2; f_equal; lia. }
      split; [unfold lowview; destruct (sup S); auto; apply lay_tr; auto|]. rewrite NL. split; auto.
      intros i j i' j' Hi Hj Hi' Hj' E. apply (Ei i j i' j'); auto. unfold mloc in *. cbn. congruence.
  - intros K1 S1.
    assert (XO : x_ok (mcol X 0) S).
    { destruct HX as [HX|(Ep & Es & Ei)].
      - left. intros k i j Hk Ho E. apply (HX k 0%nat i j); auto; [lia|]. rewrite <- E. unfold mloc, vloc, mcol. cbn. f_equal. lia.
      - right; right. destruct Es as [[E1 E2]|[E1 E2]]; [left|right; left]; intro k; unfold mloc, vloc, mcol; cbn [vb vp vst]; rewrite BX, BA, Ep, E1, E2; f_equal; lia. }
    apply (x_ok_ssafe (K:=K)); auto.
  - apply herm_hermok; auto.
  - exists m2. split; auto. refine (upd_updated _ _ _ _ _ _ P2 _). intros i j. unfold xxv, gram, xxt. f_equal. apply sum_ext. intros.
    rewrite hc_bar. reflexivity.
Qed.
Print Assumptions C35_sym_rankk_partial.

(** A square matrix multiplied by its transpose in its own memory, and a narrow one. *)
Example C35_sym_rankk_example :
  let S := mkS (mkMat 0 0 3 3 1 3 false) false false in
  let X := mkMat 0 0 3 3 1 3 false in
  let Y := mkMat 0 0 3 2 3 1 false in
  let m : hmem ZK := fun l => snd l + 1 in
  good ZK S /\ X_ok X S /\ X_ok Y S /\
  exists m2 m3, SRankKUpdate (K:=ZK) 64 1 false 1 X S m = Some m2 /\ SRankKUpdate (K:=ZK) 64 1 true 2 Y S m = Some m3 /\
    sget m2 S 0 0 = 66 /\ sget m2 S 0 2 = 90 /\ sget m2 S 2 2 = 126 /\
    sget m3 S 0 0 = 11 /\ sget m3 S 2 1 = 6 + 2 * (7 * 4 + 8 * 5).
Proof.
  cbn zeta. split; [|split; [|split]].
  - split; [reflexivity|]. split; [locs|]. split; [reflexivity|]. intro E; discriminate.
  - right. split; [reflexivity|]. split; [left; auto|]. cbn. locs.
  - right. split; [reflexivity|]. split; [right; auto|]. cbn. locs.
  - eexists. eexists. split; [vm_compute; reflexivity|]. split; [vm_compute; reflexivity|]. vm_compute. auto.
Qed.

(** Finding: S = X * X^T where X starts on S's own memory and is wider than S: the second part of the product
    replaces the first instead of being added to it. *)
Theorem C35_sym_wide_refuted :
  ~ (forall (X : mat) (S : smat) (m : hmem ZK),
       good ZK S -> X_ok X S -> ab X = 0%nat -> acs X = acs (sa S) -> acj X = false -> sh S = false ->
       exists m2, SRankKUpdate 64 1 false (1 : ZK) X S m = Some m2 /\
         updated (K:=ZK) false (fun i j => gram S m X i j) S m m2).
Proof.
  intro H.
  destruct (H (mkMat 0 0 1 2 1 1 false) (mkS (mkMat 0 0 1 1 1 1 false) false false) (fun l => snd l + 2)) as (m2 & E & P & _); auto.
  - split; [reflexivity|]. split; [locs|]. split; [reflexivity|]. intro E; discriminate.
  - right. split; [reflexivity|]. split; [left; auto|]. cbn. locs.
  - vm_compute in E. injection E as <-. specialize (P 0%nat 0%nat ltac:(cbn; lia) ltac:(cbn; lia)). vm_compute in P. discriminate.
Qed.
Print Assumptions C35_sym_wide_refuted.

(** Finding: compiled with TMV_BLOCKSIZE = 4, S = X * X^T for a column-major X of several columns keeps only the
    last column's contribution. *)
Theorem C35_sym_blocksize_refuted :
  ~ (forall (X : mat) (S : smat) (m : hmem ZK),
       good ZK S -> (forall a k i j, (a < acs (sa S))%nat -> (k < ars X)%nat -> owns S i j -> mloc X a k <> mloc (sa S) i j) ->
       ab X = 0%nat -> acs X = acs (sa S) -> acj X = false -> sh S = false ->
       exists m2, SRankKUpdate 4 2 false (1 : ZK) X S m = Some m2 /\
         updated (K:=ZK) false (fun i j => gram S m X i j) S m m2).
Proof.
  intro H.
  destruct (H (mkMat 0 10 2 2 1 2 false) (mkS (mkMat 0 0 2 2 1 2 false) false false) (fun l => snd l + 2)) as (m2 & E & P & _); auto.
  - split; [reflexivity|]. split; [locs|]. split; [reflexivity|]. intro E; discriminate.
  - unfold owns. cbn. intros a k i j Ha Hk Ho. locs.
  - vm_compute in E. injection E as <-. specialize (P 0%nat 0%nat ltac:(cbn; lia) ltac:(cbn; lia)). vm_compute in P. discriminate.
Qed.
Print Assumptions C35_sym_blocksize_refuted.
