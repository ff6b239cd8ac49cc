(** Property C20: division settings and cached decompositions, over every
    history of division-control calls, uses, writes and resizes. *)
From Coq Require Import List Arith Lia Bool ZArith.
From Verif Require Import Base DivHelper.
Import ListNotations.
Local Open Scope Z_scope.

Arguments RNone {V}. Arguments RUsed {V}. Arguments RDirect {V}. Arguments RThrow {V}.
Arguments DUsing {V}. Arguments DSave {V}. Arguments DDontSave {V}. Arguments DInPlace {V}.
Arguments DDontInPlace {V}. Arguments DSet {V}. Arguments DUnset {V}. Arguments DReset {V}.
Arguments DQuery {V}. Arguments DSolve {V}. Arguments DSymInverse {V}. Arguments DGet {V}.
Arguments DNorm2 {V}. Arguments DWrite {V}. Arguments DResize {V}.
Arguments drun {V}. Arguments ds0 {V}. Arguments asked {V}. Arguments contents {V}.
Arguments mat {V}. Arguments dv {V}. Arguments fl {V}. Arguments sq {V}.

Lemma nth_split V c w h : forall (s s1 : ds V) rs k r, drun c w s h = Ok (s1, rs) ->
  nth_error rs k = Some r ->
  exists o s2 s3 l h', h = firstn k h ++ o :: h' /\ drun c w s (firstn k h) = Ok (s2, l) /\
    l = firstn k rs /\ dstep V c w s2 o = Ok (s3, r) /\ firstn (S k) h = firstn k h ++ [o].
Proof.
  induction h as [|o h IH]; intros s s1 rs k r E N.
  - cbn in E. injection E as <- <-. destruct k; discriminate.
  - cbn [drun] in E. destruct (dstep V c w s o) as [[s2 r2]| |] eqn:Es; cbn [bindO fst snd] in E; try discriminate.
    destruct (drun c w s2 h) as [[s3 l]| |] eqn:Er; cbn [bindO fst snd] in E; try discriminate.
    injection E as <- <-. destruct k as [|k].
    + cbn in N. injection N as <-. exists o, s, s2, [], h. cbn. auto.
    + cbn [nth_error] in N. destruct (IH s2 s3 l k r Er N) as (o' & a & b & l' & h' & H1 & H2 & H3 & H4 & H5).
      exists o', a, b, (r2 :: l'), h'. rewrite !firstn_cons. cbn [app drun]. rewrite <- H1.
      split; [reflexivity|]. rewrite Es. cbn [bindO fst snd]. rewrite H2. cbn [bindO fst snd].
      split; [reflexivity|]. split; [rewrite H3; reflexivity|]. split; [exact H4|].
      rewrite H5. reflexivity.
Qed.

Lemma forallb_firstn {A} (f : A -> bool) k l : forallb f l = true -> forallb f (firstn k l) = true.
Proof.
  intro H. rewrite forallb_forall in *. intros x Hx. apply H.
  rewrite <- (firstn_skipn k l). apply in_or_app. auto.
Qed.

Lemma forallb_in_split {A} (f : A -> bool) a x b l : l = a ++ x :: b -> forallb f l = true -> f x = true.
Proof. intros -> H. rewrite forallb_app in H. apply andb_true_iff in H. destruct H as [_ H]. cbn in H. apply andb_true_iff in H. tauto. Qed.

(** A division (or det, inverse, norm2 through the SV decomposition) always goes
    through a decomposition of the type last asked for, or the default for the
    shape; and when every type asked for is one the class supports, no history
    dereferences a missing decomposition. *)
Theorem C20_type_used :
  forall (V : Type) (c : cls) (w : work V) (m : V) (square : bool) (h : list (dop V)),
    has c (dflt square) = true -> forallb (op_ok V c) h = true ->
    exists s rs, drun c w (ds0 m square) h = Ok (s, rs) /\ length rs = length h /\
      forall k t m', nth_error rs k = Some (RUsed t m') ->
        t = fst (asked (dflt square) square (firstn (S k) h)).
Proof.
  intros V c w m b h Hd Hok.
  assert (Al : alive V c (ds0 m b)) by (split; [apply ds0_inv|]; cbn; auto).
  destruct (drun_defined V c w h _ Al Hok) as [s [rs E]].
  exists s, rs. split; [exact E|]. split.
  - clear Hd Hok Al. revert s rs E. generalize (ds0 m b) as s0. induction h as [|o h IH]; intros s0 s rs E.
    + cbn in E. injection E as <- <-. reflexivity.
    + cbn [drun] in E. destruct (dstep V c w s0 o) as [[s2 r2]| |]; cbn [bindO fst snd] in E; try discriminate.
      destruct (drun c w s2 h) as [[s3 l]| |] eqn:Er; cbn [bindO fst snd] in E; try discriminate.
      injection E as <- <-. cbn [length]. f_equal. eapply IH. exact Er.
  - intros k t m' N. destruct (nth_split V c w h _ _ _ _ _ E N) as (o & s2 & s3 & l & h' & H1 & H2 & _ & H3 & H4).
    destruct (drun_inv V c w _ _ _ _ (ds0_inv V m b) (forallb_firstn _ k _ Hok) H2) as [I Q].
    destruct (dstep_spec V c w s2 o s3 _ [] I (forallb_in_split _ _ _ _ _ H1 Hok) H3) as [_ [_ T]].
    rewrite (T t m' eq_refl). rewrite H4.
    assert (AP : forall (l1 l2 : list (dop V)) x y, asked x y (l1 ++ l2) =
       asked (fst (asked x y l1)) (snd (asked x y l1)) l2).
    { induction l1 as [|o1 l1 IH]; intros l2 x y; [reflexivity|]. destruct o1; cbn [app asked]; apply IH. }
    rewrite AP.
    change (dflt b) with (force V (ds0 m b)).
    change (asked (force V (ds0 m b)) b (firstn k h)) with
      (asked (force V (ds0 m b)) (sq (ds0 m b)) (firstn k h)). rewrite Q. reflexivity.
Qed.
Print Assumptions C20_type_used.

(** Without saveDiv, divideInPlace, explicit setDiv/lud()/..., symmetric
    makeInverse, and as long as no exception was thrown, every use decomposes
    the current contents.  (The full claim of the manual, "always recalculate
    the decomposition by default", is false: see the _refuted theorems.) *)
Theorem C20_contents_kept_partial :
  forall (V : Type) (c : cls) (w : work V) (m : V) (square : bool) (h : list (dop V)) s rs,
    forallb (op_ok V c) h = true -> forallb (plain V) h = true ->
    drun c w (ds0 m square) h = Ok (s, rs) ->
    mat s = contents m h \/ In RThrow rs.
Proof.
  intros V c w m b h s rs Hok Hp E.
  assert (Cl : clean V (ds0 m b)) by (split; [apply ds0_inv|]; cbn; auto).
  destruct (in_dec (fun x y : bool => bool_dec x y) true
     (map (fun r => match r with RThrow => true | _ => false end) rs)) as [H|H].
  - right. apply in_map_iff in H. destruct H as [r [Hr Hi]]. destruct r; try discriminate. exact Hi.
  - left. eapply (drun_plain V c w h (ds0 m b)); eauto. intro Q. apply H.
    apply in_map_iff. exists RThrow. auto.
Qed.
Print Assumptions C20_contents_kept_partial.

Theorem C20_fresh_uses_partial :
  forall (V : Type) (c : cls) (w : work V) (m : V) (square : bool) (h : list (dop V)) s rs k t m',
    forallb (op_ok V c) h = true -> forallb (plain V) h = true ->
    drun c w (ds0 m square) h = Ok (s, rs) -> ~ In RThrow (firstn k rs) ->
    nth_error rs k = Some (RUsed t m') -> m' = contents m (firstn k h).
Proof.
  intros V c w m b h s rs k t m' Hok Hp E Nt N.
  assert (Cl : clean V (ds0 m b)) by (split; [apply ds0_inv|]; cbn; auto).
  destruct (nth_split V c w h _ _ _ _ _ E N) as (o & s2 & s3 & l & h' & H1 & H2 & -> & H3 & H4).
  destruct (drun_plain V c w _ _ _ _ Cl (forallb_firstn _ k _ Hok) (forallb_firstn _ k _ Hp) H2 Nt) as [C2 M2].
  destruct (dstep_plain V c w s2 o s3 _ C2 (forallb_in_split _ _ _ _ _ H1 Hok)
     (forallb_in_split _ _ _ _ _ H1 Hp) H3) as [_ [U _]]; [discriminate|].
  rewrite (U t m' eq_refl), M2. reflexivity.
Qed.
Print Assumptions C20_fresh_uses_partial.

(** Whether saving is in force. *)
Fixpoint saving {V} (b : bool) (h : list (dop V)) : bool :=
  match h with
  | [] => b
  | DSave :: h' | DInPlace :: h' => saving true h'
  | DDontSave :: h' => saving false h'
  | _ :: h' => saving b h'
  end.

Lemma saved_step V c w s o s1 r : dinv V s -> op_ok V c o = true -> dstep V c w s o = Ok (s1, r) ->
  saved (fl s1) = saving (saved (fl s)) [o].
Proof.
  intros I Hok E.
  assert (US : forall b fin s, dinv V s -> (forall x, saved (fl (fin x)) = saved (fl x)) ->
     use V c w b fin s = Ok (s1, r) -> saved (fl s1) = saved (fl s)).
  { intros b fin s' I' Hf Eu. unfold use in Eu. destruct (setDiv V c w s') as [s2 ok] eqn:Es.
    destruct (setDiv_spec V c w s' s2 ok I' Es) as [_ [_ [_ [S0 _]]]].
    destruct ok; [|injection Eu as <- <-; exact S0].
    destruct (dv s2) as [[t m]|]; [|discriminate].
    destruct (b && sthrows V w t m); injection Eu as <- <-; [exact S0|]. rewrite Hf. exact S0. }
  assert (HD : forall x : ds V, saved (fl (doneDiv V x)) = saved (fl x)).
  { intro x. unfold doneDiv. destruct (divIsSaved V x); reflexivity. }
  destruct o as [t| | | | | | | | | | |t| |m|m b]; cbn [dstep op_ok saving] in *.
  - injection E as <- <-. apply using_saved; [apply I|].
    apply orb_true_iff in Hok. rewrite andb_true_iff, Z.eqb_eq in Hok. intuition.
  - injection E as <- <-. apply fl_save. apply I.
  - injection E as <- <-. apply fl_dsave. apply I.
  - injection E as <- <-. unfold divideInPlace, saveDiv. cbn [fl]. apply fl_save. apply fl_inp. apply I.
  - injection E as <- <-. apply fl_dinp. apply I.
  - injection E as E1 <-. destruct (setDiv V c w s) as [s2 ok] eqn:Es. cbn [fst] in E1. subst s2.
    apply (setDiv_spec V c w s s1 ok I Es).
  - injection E as <- <-. reflexivity.
  - assert (I' : dinv V (unsetDiv V s)) by (split; [apply I|cbn; discriminate]).
    injection E as E1 <-. destruct (setDiv V c w (unsetDiv V s)) as [s2 ok] eqn:Es. cbn [fst] in E1. subst s2.
    apply (setDiv_spec V c w _ s1 ok I' Es).
  - eapply US; eauto.
  - eapply US; eauto.
  - apply (US true (fun x => x) s I); auto.
  - apply andb_true_iff in Hok. destruct Hok as [Ht _].
    rewrite (US false (fun x => x) (divideUsing V t s) (proj1 (divideUsing_inv V t s I (or_intror Ht)))); auto.
    apply using_saved; [apply I|auto].
  - destruct (dv s) as [[t m]|].
    + pose proof (getDivType_spec V s I) as G. destruct (getDivType V s) as [s2 t2].
      destruct (t2 =? SV); injection E as <- <-; apply G.
    + injection E as <- <-. reflexivity.
  - injection E as <- <-. reflexivity.
  - injection E as <- <-. unfold resetDivType. cbn [sq].
    change (if b then LU else QR) with (dflt b).
    rewrite using_saved; [reflexivity|apply I|right; apply dflt_type].
Qed.

Lemma saved_run V c w h : forall s s1 rs, dinv V s -> forallb (op_ok V c) h = true ->
  drun c w s h = Ok (s1, rs) -> saved (fl s1) = saving (saved (fl s)) h.
Proof.
  induction h as [|o h IH]; intros s s1 rs I Hok E.
  - cbn in E. injection E as <- <-. reflexivity.
  - cbn [forallb] in Hok. apply andb_true_iff in Hok. destruct Hok as [H1 H2].
    cbn [drun] in E. destruct (dstep V c w s o) as [[s2 r]| |] eqn:Es; cbn [bindO fst snd] in E; try discriminate.
    destruct (drun c w s2 h) as [[s3 l]| |] eqn:Er; cbn [bindO fst snd] in E; try discriminate.
    injection E as <- <-.
    destruct (dstep_spec V c w s o s2 r [] I H1 Es) as [I2 _].
    rewrite (IH s2 s3 l I2 H2 Er), (saved_step V c w s o s2 r I H1 Es). destruct o; reflexivity.
Qed.

(** Reuse: when saving is in force and a call used the decomposition (t, m'),
    then through any further calls that do not unset it (unsetDiv, resetDiv,
    dontSaveDiv, another type, resize) every use is through that same
    decomposition, whatever is written to the matrix in between. *)
Theorem C20_saved_reuse :
  forall (V : Type) (c : cls) (w : work V) (m : V) (square : bool) (h1 h2 : list (dop V)) (o : dop V) s l t m' l2,
    forallb (op_ok V c) (h1 ++ [o]) = true -> saving false h1 = true ->
    drun c w (ds0 m square) (h1 ++ o :: h2) = Ok (s, l ++ RUsed t m' :: l2) -> length l = length h1 ->
    forallb (keeps V t) h2 = true ->
    forall t2 m2, In (RUsed t2 m2) l2 -> t2 = t /\ m2 = m'.
Proof.
  intros V c w m b h1 h2 o s l t m' l2 Hok Hs E Hl Hk.
  rewrite forallb_app in Hok. apply andb_true_iff in Hok. destruct Hok as [Ok1 Ok2].
  cbn in Ok2. rewrite andb_true_r in Ok2.
  rewrite drun_app in E. destruct (drun c w (ds0 m b) h1) as [[s1 rs1]| |] eqn:E1; cbn [bindO fst snd] in E; try discriminate.
  cbn [drun] in E. destruct (dstep V c w s1 o) as [[s2 r]| |] eqn:Es; cbn [bindO fst snd] in E; try discriminate.
  destruct (drun c w s2 h2) as [[s3 rs2]| |] eqn:E2; cbn [bindO fst snd] in E; try discriminate.
  injection E as <- El.
  assert (L1 : length rs1 = length h1).
  { clear -E1. revert E1. generalize (ds0 m b) as s0. revert s1 rs1.
    induction h1 as [|o' h IH]; intros s1 rs1 s0 E.
    - cbn in E. injection E as <- <-. reflexivity.
    - cbn [drun] in E. destruct (dstep V c w s0 o') as [[sa ra]| |]; cbn [bindO fst snd] in E; try discriminate.
      destruct (drun c w sa h) as [[sb lb]| |] eqn:Er; cbn [bindO fst snd] in E; try discriminate.
      injection E as <- <-. cbn [length]. f_equal. eapply IH. exact Er. }
  assert (EQ : rs1 = l /\ r :: rs2 = RUsed t m' :: l2).
  { clear -El L1 Hl. rewrite <- L1 in Hl. clear L1. revert l Hl El.
    induction rs1 as [|x rs1 IH]; intros [|y l] Hl El; try discriminate; cbn in *; auto.
    injection El as -> El. injection Hl as Hl. destruct (IH l Hl El) as [-> ->]. auto. }
  destruct EQ as [<- EQ]. injection EQ as -> <-.
  destruct (drun_inv V c w _ _ _ _ (ds0_inv V m b) Ok1 E1) as [I1 _].
  assert (Sv : saved (fl s1) = true) by (rewrite (saved_run V c w _ _ _ _ (ds0_inv V m b) Ok1 E1); exact Hs).
  destruct (dstep_spec V c w s1 o s2 _ [] I1 Ok2 Es) as [I2 _].
  assert (D2 : dv s2 = Some (t, m') /\ saved (fl s2) = true).
  { assert (US : forall bb fin s', dinv V s' -> saved (fl s') = true -> (forall x, saved (fl x) = true -> fin x = x) ->
       use V c w bb fin s' = Ok (s2, RUsed t m') -> dv s2 = Some (t, m') /\ saved (fl s2) = true).
    { intros bb fin s' I' Sv' Hf Eu. unfold use in Eu. destruct (setDiv V c w s') as [sx ok] eqn:Ex.
      destruct (setDiv_spec V c w s' sx ok I' Ex) as [_ [_ [_ [S0 _]]]].
      destruct ok; [|discriminate]. destruct (dv sx) as [[tx mx]|] eqn:Dx; [|discriminate].
      destruct (bb && sthrows V w tx mx); [discriminate|]. injection Eu as <- <- <-.
      rewrite Hf by congruence. split; [exact Dx|congruence]. }
    assert (HD : forall x : ds V, saved (fl x) = true -> doneDiv V x = x).
    { intros x Hx. unfold doneDiv, divIsSaved. fold (saved (fl x)). rewrite Hx. reflexivity. }
    destruct o as [u| | | | | | | | | | |u| |v|v b']; cbn [dstep] in Es; try discriminate;
      try (unfold set_res in Es; match type of Es with context [snd ?p] => destruct (snd p) end; discriminate).
    - exact (US false (doneDiv V) s1 I1 Sv HD Es).
    - exact (US true (doneDiv V) s1 I1 Sv HD Es).
    - apply (US true (fun x => x) s1 I1); auto.
    - cbn [op_ok] in Ok2. apply andb_true_iff in Ok2. destruct Ok2 as [Ht _].
      refine (US false (fun x => x) (divideUsing V u s1) (proj1 (divideUsing_inv V u s1 I1 (or_intror Ht))) _ _ Es); auto.
      rewrite using_saved; [exact Sv|apply I1|auto].
    - destruct (dv s1) as [[tx mx]|] eqn:Dx; [|discriminate].
      pose proof (getDivType_spec V s1 I1) as G.
      destruct (getDivType V s1) as [sx ty]. destruct G as [_ [_ [_ [G4 [_ [_ [G7 G8]]]]]]].
      destruct (ty =? SV) eqn:Et; [|discriminate]. injection Es as <- <- <-.
      destruct (proj2 I2 tx mx ltac:(congruence)) as [Q _]. split; [|congruence].
      rewrite G7, Dx. congruence. }
  destruct D2 as [D2 S2].
  intros t2 m2 Hin.
  exact (proj2 (proj2 (proj2 (keeps_run V c w h2 s2 t m' s3 rs2 I2 D2 S2 Hk E2))) t2 m2 Hin).
Qed.
Print Assumptions C20_saved_reuse.

(** Unsetting: after any history, unsetDiv makes the next use decompose what
    the matrix holds then; resetDiv does so at once, and keeps that
    decomposition for the next use. *)
Theorem C20_unset_and_reset :
  forall (V : Type) (c : cls) (w : work V) (m : V) (square : bool) (h : list (dop V)) s rs,
    has c (dflt square) = true -> forallb (op_ok V c) h = true ->
    drun c w (ds0 m square) h = Ok (s, rs) ->
    (exists s' r, drun c w (ds0 m square) (h ++ [DUnset; DQuery]) = Ok (s', rs ++ [RNone; r]) /\
       (r = RThrow \/ exists t, r = RUsed t (mat s))) /\
    (forall m', exists s' r r', drun c w (ds0 m square) (h ++ [DReset; DWrite m'; DQuery]) = Ok (s', rs ++ [r; RNone; r']) /\
       (r = RThrow \/ exists t, r' = RUsed t (mat s))).
Proof.
  intros V c w m b h s rs Hd Hok E.
  assert (Al0 : alive V c (ds0 m b)) by (split; [apply ds0_inv|]; cbn; auto).
  assert (Al : alive V c s).
  { clear -E Al0 Hok. revert E Al0. generalize (ds0 m b) as s0. revert s rs.
    induction h as [|o' h IH]; intros s1 rs1 s0 E Al.
    - cbn in E. injection E as <- <-. exact Al.
    - cbn [forallb] in Hok. apply andb_true_iff in Hok. destruct Hok as [H1 H2].
      cbn [drun] in E. destruct (dstep V c w s0 o') as [[sa ra]| |] eqn:Ea; cbn [bindO fst snd] in E; try discriminate.
      destruct (drun c w sa h) as [[sb lb]| |] eqn:Er; cbn [bindO fst snd] in E; try discriminate.
      injection E as <- <-. destruct (dstep_defined V c w s0 o' Al H1) as [sx [rx [Ex Ax]]].
      rewrite Ea in Ex. injection Ex as <- <-. exact (IH H2 _ _ _ Er Ax). }
  set (u := unsetDiv V s). assert (Iu : dinv V u) by (split; [apply Al|cbn; discriminate]).
  assert (Fu : has c (force V u) = true) by apply Al.
  split.
  - rewrite drun_app, E. cbn [bindO fst snd]. cbn [drun dstep bindO fst snd]. fold u.
    unfold use. destruct (setDiv V c w u) as [s2 ok] eqn:Es.
    destruct (setDiv_spec V c w u s2 ok Iu Es) as [A [B [C [S0 [D [F G]]]]]].
    destruct (F eq_refl Fu) as [[-> Dv]|[-> Dv]].
    + rewrite Dv. cbn [andb bindO fst snd]. do 2 eexists. split; [reflexivity|]. right. eexists. reflexivity.
    + cbn [bindO fst snd]. do 2 eexists. split; [reflexivity|]. auto.
  - intro m'. rewrite drun_app, E. cbn [bindO fst snd]. cbn [drun dstep bindO fst snd]. fold u.
    unfold set_res. destruct (setDiv V c w u) as [s2 ok] eqn:Es. cbn [fst snd].
    destruct (setDiv_spec V c w u s2 ok Iu Es) as [A [B [C [S0 [D [F G]]]]]].
    destruct (F eq_refl Fu) as [[-> Dv]|[-> Dv]].
    + unfold use, setDiv. cbn [dv fl mat sq]. rewrite Dv. cbn [dv andb bindO fst snd].
      do 3 eexists. split; [reflexivity|]. right. eexists. reflexivity.
    + assert (Ia : dinv V (mkDs V (fl s2) (dv s2) m' (sq s2))) by exact A.
      assert (Fa : has c (force V (mkDs V (fl s2) (dv s2) m' (sq s2))) = true).
      { change (has c (force V s2) = true). rewrite B. exact Fu. }
      destruct (use_defined V c w false (doneDiv V) _ Ia Fa) as [s3 [r3 E3]].
      rewrite E3. cbn [bindO fst snd]. do 3 eexists. split; [reflexivity|]. auto.
Qed.
Print Assumptions C20_unset_and_reset.

(** A concrete session meeting the hypotheses: contents are integers, 0 is
    singular, negative contents are not positive definite. *)
Definition demo : work Z :=
  mkWork Z (fun t m => (t =? CH) && (m <? 0)) (fun t m => ((t =? LU) || (t =? QR)) && (m =? 0)) (fun _ _ => 999).

Example C20_hyp :
  forallb (op_ok Z GenMatrixC) [DSave; DQuery; DWrite 8; DSolve; DUsing QR; DQuery; DUsing XX; DSolve; DReset; DNorm2] = true /\
  drun GenMatrixC demo (ds0 7 true) [DSave; DQuery; DWrite 8; DSolve; DUsing QR; DQuery; DUsing XX; DSolve; DReset; DNorm2]
  = Ok (mkDs Z 65 (Some (LU, 8)) 8 true,
        [RNone; RUsed LU 7; RNone; RUsed LU 7; RNone; RUsed QR 8; RNone; RUsed LU 8; RNone; RDirect 8]) /\
  saving false [DSave; DQuery; DWrite 8; DSolve] = true /\
  drun SymC demo (ds0 (-1) true) [DUsing CH; DSolve; DUsing LU; DSolve]
  = Ok (mkDs Z 1 None (-1) true, [RNone; RThrow; RNone; RUsed LU (-1)]) /\
  forallb (plain Z) [DQuery; DWrite 3; DSolve] = true /\
  drun BandC demo (ds0 7 false) [DQuery; DWrite 3; DSolve] = Ok (mkDs Z 4 None 3 false, [RUsed QR 7; RNone; RUsed QR 3]).
Proof. vm_compute. auto 10. Qed.

(** The manual's "always recalculate the decomposition by default" fails when
    an exception left the previous call: the singular matrix is repaired, yet
    the next solve throws again, and det() still answers for the old contents. *)
Theorem C20_stale_after_exception_refuted :
  exists (w : work Z) (m m' : Z),
    sthrows Z w LU m = true /\ sthrows Z w LU m' = false /\ m <> m' /\
    (exists s, drun GenMatrixC w (ds0 m true) [DSolve; DWrite m'; DSolve] = Ok (s, [RThrow; RNone; RThrow])) /\
    (exists s, drun GenMatrixC w (ds0 m true) [DSolve; DWrite m'; DQuery] = Ok (s, [RThrow; RNone; RUsed LU m])).
Proof.
  exists demo, 0, 5. repeat split; try reflexivity; try discriminate; eexists; vm_compute; reflexivity.
Qed.
Print Assumptions C20_stale_after_exception_refuted.

(** It also fails after makeInverse into a SymMatrix, which never calls doneDiv. *)
Theorem C20_stale_after_sym_inverse_refuted :
  exists (w : work Z) (m m' : Z), m <> m' /\
    (exists s, drun SymC w (ds0 m true) [DSymInverse; DWrite m'; DSolve] = Ok (s, [RUsed LU m; RNone; RUsed LU m])) /\
    (exists s, drun SymBandC w (ds0 m true) [DSymInverse; DWrite m'; DSolve] = Ok (s, [RUsed LU m; RNone; RUsed LU m])).
Proof.
  exists demo, 7, 5. repeat split; try discriminate; eexists; vm_compute; reflexivity.
Qed.
Print Assumptions C20_stale_after_sym_inverse_refuted.

(** And resize keeps a saved decomposition of the same type although it belongs
    to a matrix of another size. *)
Theorem C20_stale_after_resize_refuted :
  exists (w : work (nat * nat)) (m m' : nat * nat), m <> m' /\
    exists s, drun GenMatrixC w (ds0 m true) [DSave; DQuery; DResize m' true; DQuery]
      = Ok (s, [RNone; RUsed LU m; RNone; RUsed LU m]).
Proof.
  exists (mkWork _ (fun _ _ => false) (fun _ _ => false) (fun _ x => x)), (3, 3)%nat, (5, 5)%nat.
  split; [discriminate|]. eexists. vm_compute. reflexivity.
Qed.
Print Assumptions C20_stale_after_resize_refuted.
