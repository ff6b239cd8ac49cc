(** Determinant of a diagonal through logarithms: GenDiagMatrix::logDet and det
    (src/TMV_DiagMatrix.cpp:49-93), as used by LUDiv::det (src/TMV_LUD.cpp:137-163).
    Real numbers are Coq's. *)
Require Import Reals List Lra.
Open Scope R_scope.

(** logDet for real elements, 59-93.  TMV_SIGN(x,a) is x>0 ? 1 : -1
    (include/tmv/TMV_Base.h); [log0] is whatever TMV_LOG gives at 0. *)
Section Real.
Variable log0 : R.
Definition ldstep (S : R * R) (d : R) : R * R :=
  let (logdet, s) := S in
  if Req_EM_T d 0 then (log0, 0) else (logdet + ln (Rabs d), s * (if Rlt_dec 0 d then 1 else -1)).
Definition logDet (d : list R) : R * R := fold_left ldstep d (0, 1).
(** det, 49-56, and LUDiv::det with the sign of the permutation in front. *)
Definition detOf (psign : R) (d : list R) : R :=
  let (logdet, s) := logDet d in
  let signdet := psign * s in
  if Req_EM_T signdet 0 then 0 else signdet * exp logdet.
End Real.

Definition prodR (d : list R) : R := fold_right Rmult 1 d.

Lemma sign_exp d : d <> 0 -> (if Rlt_dec 0 d then 1 else -1) * exp (ln (Rabs d)) = d.
Proof.
  intros H. rewrite exp_ln by (apply Rabs_pos_lt; exact H).
  destruct (Rlt_dec 0 d) as [h|h].
  - rewrite Rabs_right by lra. lra.
  - rewrite Rabs_left by lra. lra.
Qed.

Lemma ld_inv log0 d l s :
  let (l', s') := fold_left (ldstep log0) d (l, s) in
  s' * exp l' = s * exp l * prodR d /\ (s' = 0 -> s = 0 \/ prodR d = 0) \/
  (s' = 0 /\ prodR d = 0).
Proof.
  revert l s; induction d as [|x d IH]; intros l s; simpl.
  - left. split; [rewrite Rmult_1_r; reflexivity | intros ->; left; reflexivity].
  - destruct (Req_EM_T x 0) as [->|Hx].
    + specialize (IH log0 0). destruct (fold_left (ldstep log0) d (log0, 0)) as [l' s'].
      right. destruct IH as [[IH _]|[IH _]].
      * split; [|lra]. rewrite !Rmult_0_l in IH.
        destruct (Rmult_integral _ _ IH) as [E|E]; [exact E|].
        pose proof (exp_pos l'). lra.
      * split; [exact IH | lra].
    + specialize (IH (l + ln (Rabs x)) (s * (if Rlt_dec 0 x then 1 else -1))).
      destruct (fold_left _ d _) as [l' s'].
      destruct IH as [[IH IH2]|[IH1 IH2]].
      * left; split.
        -- rewrite IH, exp_plus.
           replace (s * (if Rlt_dec 0 x then 1 else -1) * (exp l * exp (ln (Rabs x))) * prodR d)
             with (s * exp l * ((if Rlt_dec 0 x then 1 else -1) * exp (ln (Rabs x))) * prodR d) by ring.
           rewrite sign_exp by exact Hx. ring.
        -- intros E. destruct (IH2 E) as [E2|E2].
           ++ left. destruct (Rlt_dec 0 x); lra.
           ++ right. rewrite E2; ring.
      * right; split; [exact IH1 | rewrite IH2; ring].
Qed.

Lemma detOfP log0 psign d : detOf log0 psign d = psign * prodR d.
Proof.
  unfold detOf, logDet. pose proof (ld_inv log0 d 0 1) as H.
  destruct (fold_left (ldstep log0) d (0, 1)) as [l s].
  rewrite exp_0 in H.
  destruct (Req_EM_T (psign * s) 0) as [E|E].
  - destruct H as [[H _]|[_ H]].
    + replace (psign * prodR d) with (psign * s * exp l) by (rewrite Rmult_assoc, H; ring).
      rewrite E; ring.
    + rewrite H; ring.
  - destruct H as [[H _]|[H _]].
    + rewrite Rmult_assoc, H; ring.
    + exfalso; apply E; rewrite H; ring.
Qed.

(** Complex elements: the pair (re,im); TMV_SIGN(x,a) is x/a and TMV_ABS is the
    modulus. *)
Section Complex.
Variable log0 : R.
Definition cmul (a b : R * R) : R * R := (fst a * fst b - snd a * snd b, fst a * snd b + snd a * fst b).
Definition cabs (a : R * R) : R := sqrt (fst a * fst a + snd a * snd a).
Definition cdivr (a : R * R) (r : R) : R * R := (fst a / r, snd a / r).
Definition cis0 (a : R * R) : {a = (0, 0)} + {a <> (0, 0)}.
Proof.
  destruct a as [x y]; destruct (Req_EM_T x 0) as [->|H]; [destruct (Req_EM_T y 0) as [->|H]|].
  - left; reflexivity.
  - right; intros E; inversion E; auto.
  - right; intros E; inversion E; auto.
Defined.
(** [conj]: diag().isconj(); the memory holds the conjugates of the elements. *)
Definition cconj (a : R * R) : R * R := (fst a, - snd a).
Definition cldstep (S : R * (R * R)) (d : R * R) : R * (R * R) :=
  let (logdet, s) := S in
  if cis0 d then (log0, (0, 0)) else (logdet + ln (cabs d), cmul s (cdivr d (cabs d))).
Definition clogDet (conj : bool) (mem : list (R * R)) : R * (R * R) :=
  let (l, s) := fold_left cldstep mem (0, (1, 0)) in (l, if conj then cconj s else s).
Definition cdetOf (psign : R) (conj : bool) (mem : list (R * R)) : R * R :=
  let (logdet, s) := clogDet conj mem in
  let signdet := (psign * fst s, psign * snd s) in
  if cis0 signdet then (0, 0) else (fst signdet * exp logdet, snd signdet * exp logdet).
End Complex.

Definition prodC (d : list (R * R)) : R * R := fold_right cmul (1, 0) d.
Definition cscale (r : R) (a : R * R) : R * R := (r * fst a, r * snd a).

Lemma cmulA a b c : cmul a (cmul b c) = cmul (cmul a b) c.
Proof. unfold cmul; simpl; f_equal; ring. Qed.
Lemma cscale_cmul r a b : cscale r (cmul a b) = cmul (cscale r a) b.
Proof. unfold cmul, cscale; simpl; f_equal; ring. Qed.
Lemma cabs_pos d : d <> (0, 0) -> 0 < cabs d.
Proof.
  intros H; apply sqrt_lt_R0; destruct d as [x y]; simpl in *.
  destruct (Req_EM_T x 0) as [->|Hx].
  - destruct (Req_EM_T y 0) as [->|Hy]; [contradiction H; reflexivity|].
    pose proof (Rsqr_pos_lt y Hy). unfold Rsqr in *. lra.
  - pose proof (Rsqr_pos_lt x Hx). pose proof (Rle_0_sqr y). unfold Rsqr in *. lra.
Qed.
Lemma cscale_div d : d <> (0, 0) -> cscale (exp (ln (cabs d))) (cdivr d (cabs d)) = d.
Proof.
  intros H; pose proof (cabs_pos d H) as Hp. rewrite exp_ln by exact Hp.
  destruct d as [x y]; unfold cscale, cdivr; simpl; f_equal; field; lra.
Qed.

Lemma cld_inv log0 d l s :
  let (l', s') := fold_left (cldstep log0) d (l, s) in
  cscale (exp l') s' = cmul (cscale (exp l) s) (prodC d) \/
  (s' = (0, 0) /\ prodC d = (0, 0)).
Proof.
  revert l s; induction d as [|x d IH]; intros l s; simpl.
  - left. unfold cmul, cscale; simpl; f_equal; ring.
  - destruct (cis0 x) as [->|Hx].
    + specialize (IH log0 (0, 0)). destruct (fold_left (cldstep log0) d (log0, (0, 0))) as [l' s'].
      right. assert (E : cmul (0, 0) (prodC d) = (0, 0)) by (unfold cmul; simpl; f_equal; ring).
      split; [|exact E].
      destruct IH as [IH|[IH _]]; [|exact IH].
      assert (E0 : cscale (exp l') s' = (0, 0)).
      { rewrite IH. unfold cscale, cmul; simpl; f_equal; ring. }
      pose proof (exp_pos l') as Hp. destruct s' as [a b]. unfold cscale in E0; simpl in E0.
      injection E0 as E1 E2.
      assert (a = 0) by (destruct (Rmult_integral _ _ E1); lra).
      assert (b = 0) by (destruct (Rmult_integral _ _ E2); lra). subst; reflexivity.
    + specialize (IH (l + ln (cabs x)) (cmul s (cdivr x (cabs x)))).
      destruct (fold_left _ d _) as [l' s'].
      destruct IH as [IH|[IH1 IH2]].
      * left. rewrite IH, exp_plus, cmulA. f_equal.
        transitivity (cmul (cscale (exp l) s) (cscale (exp (ln (cabs x))) (cdivr x (cabs x)))).
        { unfold cmul, cscale; simpl; f_equal; ring. }
        rewrite cscale_div by exact Hx. reflexivity.
      * right. rewrite IH2. split; [exact IH1|]. unfold cmul; simpl; f_equal; ring.
Qed.

Lemma prodC_conj d : prodC (map cconj d) = cconj (prodC d).
Proof.
  induction d as [|x d IH]; simpl; [unfold cconj; simpl; f_equal; ring|].
  rewrite IH; unfold cmul, cconj; simpl; f_equal; ring.
Qed.

Lemma cdetOfP log0 psign conj mem :
  cdetOf log0 psign conj mem = cscale psign (prodC (if conj then map cconj mem else mem)).
Proof.
  unfold cdetOf, clogDet. pose proof (cld_inv log0 mem 0 (1, 0)) as H.
  destruct (fold_left (cldstep log0) mem (0, (1, 0))) as [l s].
  rewrite exp_0 in H.
  assert (H' : cscale (exp l) s = prodC mem \/ s = (0, 0) /\ prodC mem = (0, 0)).
  { destruct H as [H|H]; [left|right; exact H]. rewrite H.
    destruct (prodC mem); unfold cmul, cscale; simpl; f_equal; ring. }
  clear H.
  assert (K : cscale (exp l) (if conj then cconj s else s) = prodC (if conj then map cconj mem else mem) \/
              (if conj then cconj s else s) = (0, 0) /\ prodC (if conj then map cconj mem else mem) = (0, 0)).
  { destruct conj; [|exact H']. rewrite prodC_conj. destruct H' as [H|[H1 H2]].
    - left. rewrite <- H. unfold cconj, cscale; simpl; f_equal; ring.
    - right. rewrite H1, H2. unfold cconj; simpl; split; f_equal; ring. }
  clear H'. set (t := if conj then cconj s else s) in *. set (p := prodC _) in *. clearbody t p.
  destruct (cis0 (psign * fst t, psign * snd t)) as [E|E].
  - destruct K as [K|[K1 K2]].
    + rewrite <- K. injection E as E1 E2. unfold cscale; simpl.
      f_equal.
      * replace (psign * (exp l * fst t)) with (psign * fst t * exp l) by ring. rewrite E1; ring.
      * replace (psign * (exp l * snd t)) with (psign * snd t * exp l) by ring. rewrite E2; ring.
    + rewrite K2; unfold cscale; simpl; f_equal; ring.
  - destruct K as [K|[K1 K2]].
    + rewrite <- K; unfold cscale; simpl; f_equal; ring.
    + exfalso; apply E. rewrite K1; simpl; f_equal; ring.
Qed.
