(** makeInverseATA through the LU decomposition: LUDiv::doMakeInverseATA,
    src/TMV_LUD.cpp:176-210, and BandLUDiv::doMakeInverseATA, src/TMV_BandLUD.cpp:286-318.
    Complex elements.  The products into ata of matrices that are views of ata itself
    (ata = linv * linv.adjoint()) are taken of the old values. *)
From mathcomp Require Import all_ssreflect all_fingroup all_algebra zify.
From Verif Require Import Base FMat TriSolve TriInv RowPerm LU LUProofs Claims_Tri LUDiv QRProofs BandTri BandLU BandLUDiv.
Set Implicit Arguments. Unset Strict Implicit. Unset Printing Implicit Defensive.
Import GRing.Theory Num.Theory Order.Theory.
Local Open Scope ring_scope.

Section Model.
Variable C : numClosedFieldType.
Implicit Types (A V LUx m : fm C) (P : nat -> nat).
Variables nbT nbT2 nb : nat.
Variables stA stB : stor.

(** Views: conjugate() and adjoint(). *)
Definition cnj A : fm C := fun i j => (A i j)^*.
Definition adj A : fm C := trm (cnj A).

(** ata = uinv.transpose() * uinv.conjugate();  ata = linv * linv.adjoint(). *)
Definition utuc (N : nat) U : fm C := fun i j => \sum_(0 <= k < N) upper false U k i * (upper false U k j)^*.
Definition lladj (N : nat) L : fm C := fun i j => \sum_(0 <= k < N) lower true L i k * (lower true L j k)^*.

Definition LU_InverseATA (istrans : bool) (N : nat) LUx P : outcome (fm C) :=
  if istrans then
    bindO (TriInverse nbT false N LUx) (fun uinv =>
    let ata := utuc N uinv in
    bindO (TriLDivEqMU nbT nbT2 (trst stA) stB true N N (trm LUx) ata) (fun ata =>
    bindO (TriRDivEqM nbT nbT2 false stA stB true N N (cnj LUx) ata) (fun ata =>
    let ata := trm (revpermrows N P 0 N (trm ata)) in
    Ok (revpermrows N P 0 N ata))))
  else
    bindO (TriInverseL nbT true N LUx) (fun linv =>
    let ata := lladj N linv in
    bindO (TriLDivEqMU nbT nbT2 stA stB false N N LUx ata) (fun ata =>
    TriRDivEqM nbT nbT2 false (trst stA) stB false N N (adj LUx) ata)).

(** The same for a band matrix.  Here [linv] is the unit lower triangle of ata after
    LU_PackedPL_LDivEq has been applied to the identity. *)
Definition BLU_InverseATA (istrans : bool) (N nlo nhi : nat) V P m : outcome (fm C) :=
  if istrans then
    bindO (BTriInverse nb false N nhi (invinit N nhi V m)) (fun uinv =>
    let ata := utuc N uinv in
    let ata := trm (PackedPL_RDivEq N nlo N V P (trm ata)) in
    Ok (cnj (PackedPL_RDivEq N nlo N V P (cnj ata))))
  else
    let ata := PackedPL_LDivEq N nlo N V P (fun i j => (i == j)%:R) in
    let ata := lladj N ata in
    bindO (BTriLDivEqMU stA stB false N nhi N V ata) (fun ata =>
    bindO (BTriLDivEqMU stA (trst stB) false N nhi N V (adj ata)) (fun ata' => Ok (adj ata'))).
End Model.

Section Proofs.
Variable C : numClosedFieldType.
Implicit Types (A V LUx : fm C) (P : nat -> nat).

Definition cmx m n (X : 'M[C]_(m, n)) : 'M[C]_(m, n) := (ctr X)^T.
Lemma cmxM m n p (X : 'M[C]_(m, n)) (Y : 'M[C]_(n, p)) : cmx (X *m Y) = cmx X *m cmx Y.
Proof. by rewrite /cmx ctrM trmx_mul. Qed.
Lemma cmx1 n : cmx (1%:M : 'M[C]_n) = 1%:M.
Proof. by rewrite /cmx ctr1 trmx1. Qed.
Lemma cmxK m n (X : 'M[C]_(m, n)) : cmx (cmx X) = X.
Proof. by apply/matrixP => i j; rewrite !mxE conjCK. Qed.
Lemma ctrE m n (X : 'M[C]_(m, n)) : ctr X = (cmx X)^T.
Proof. by rewrite /cmx trmxK. Qed.
Lemma mx_cnj m n A : mx m n (cnj A) = cmx (mx m n A).
Proof. by apply/matrixP => i j; rewrite !mxE. Qed.
Lemma mx_adj m n A : mx n m (adj A) = ctr (mx m n A).
Proof. by apply/matrixP => i j; rewrite !mxE. Qed.
Lemma mx_utuc N (U : fm C) : mx N N (utuc N U) = (mx N N (upper false U))^T *m cmx (mx N N (upper false U)).
Proof. by apply/matrixP => i j; rewrite !mxE /utuc big_mkord; apply: eq_bigr => k _; rewrite !mxE. Qed.
Lemma mx_lladj N (L : fm C) : mx N N (lladj N L) = mx N N (lower true L) *m ctr (mx N N (lower true L)).
Proof. by apply/matrixP => i j; rewrite !mxE /lladj big_mkord; apply: eq_bigr => k _; rewrite !mxE. Qed.

(** A^dagger A, and the two shapes the algorithms give its inverse in. *)
Definition ATA N A : 'M[C]_N := ctr (mx N N A) *m mx N N A.

Lemma ata_direct N A (W X : 'M[C]_N) s : W = row_perm s (mx N N A) -> W *m X *m ctr W = 1%:M ->
  X *m ATA N A = 1%:M /\ ATA N A *m X = 1%:M.
Proof.
  move=> EW H.
  have E : ATA N A = ctr W *m W.
    rewrite EW row_permE ctrM mulmxA -(mulmxA (ctr (mx N N A))).
    have -> : ctr (perm_mx s : 'M[C]_N) *m perm_mx s = 1%:M; last by rewrite mulmx1.
    have -> : ctr (perm_mx s : 'M[C]_N) = perm_mx s^-1.
      rewrite -tr_perm_mx; apply/matrixP => i j; rewrite !mxE; exact: conjC_nat.
    by rewrite -perm_mxM mulVg perm_mx1.
  have H2 : X *m ATA N A = 1%:M by rewrite E mulmxA; apply: mulmx1C; rewrite mulmxA.
  by split=> //; apply: mulmx1C.
Qed.

Lemma ata_trans N A (X : 'M[C]_N) : (mx N N (trm A))^T *m X *m cmx (mx N N (trm A)) = 1%:M ->
  X *m ATA N A = 1%:M /\ ATA N A *m X = 1%:M.
Proof.
  move=> H.
  have E : ATA N A = cmx (mx N N (trm A)) *m (mx N N (trm A))^T.
    by rewrite trm_mx trmxK /ATA; congr (_ *m _); rewrite /cmx; apply/matrixP => i j; rewrite !mxE.
  have H2 : X *m ATA N A = 1%:M by rewrite E mulmxA; apply: mulmx1C; rewrite mulmxA.
  by split=> //; apply: mulmx1C.
Qed.

Lemma upper_adj N A : mx N N (lower false (adj A)) = ctr (mx N N (upper false A)).
Proof.
  apply/matrixP => i j; rewrite !mxE /lower /upper /adj /trm /cnj eq_sym.
  by case: eqP => // _; case: ifP => // _; rewrite conjC0.
Qed.
Lemma lower_cnj N A : mx N N (lower true (cnj A)) = cmx (mx N N (lower true A)).
Proof.
  apply/matrixP => i j; rewrite !mxE /lower /cnj.
  by case: eqP => [_|_]; [rewrite conjC1 | case: ifP => // _; rewrite conjC0].
Qed.
Lemma lower_trm N A : mx N N (upper true (trm A)) = (mx N N (lower true A))^T.
Proof. by apply/matrixP => i j; rewrite !mxE /lower /upper /trm eq_sym. Qed.
Lemma revcolsC N P A (s : 'S_N) V : (forall i : 'I_N, psig P 0 N i = s i :> nat) ->
  mx N N V *m row_perm s (cmx (mx N N A)) = mx N N (trm (revpermrows N P 0 N (trm V))) *m cmx (mx N N A).
Proof. by move=> Hs; rewrite -mx_cnj; exact: revcols. Qed.

Section Dense.
Variables nbT nbT2 : nat.
Hypotheses (nbTP : (0 < nbT)%N) (nbT2P : (0 < nbT2)%N).
Variables stA stB : stor.

Lemma inv_upper N V (X : fm C) : (forall i j, (i < N)%N -> (j < N)%N ->
    \sum_(k < N) upper false V i k * upper false X k j = (i == j)%:R /\
    \sum_(k < N) upper false X i k * upper false V k j = (i == j)%:R) ->
  mx N N (upper false X) *m mx N N (upper false V) = 1%:M.
Proof.
  move=> h; apply/matrixP => i j; rewrite !mxE; have [_ <-] := h i j (ltn_ord i) (ltn_ord j).
  by apply: eq_bigr => k _; rewrite !mxE.
Qed.
Lemma inv_lower N V (X : fm C) : (forall i j, (i < N)%N -> (j < N)%N ->
    \sum_(k < N) lower true V i k * lower true X k j = (i == j)%:R /\
    \sum_(k < N) lower true X i k * lower true V k j = (i == j)%:R) ->
  mx N N (lower true X) *m mx N N (lower true V) = 1%:M.
Proof.
  move=> h; apply/matrixP => i j; rewrite !mxE; have [_ <-] := h i j (ltn_ord i) (ltn_ord j).
  by apply: eq_bigr => k _; rewrite !mxE.
Qed.

Lemma LU_InverseATAP (istrans : bool) N A LUx P s :
  @lufacts C N (if istrans then trm A else A) LUx P s ->
  post (fun X => mx N N X *m ATA N A = 1%:M /\ ATA N A *m mx N N X = 1%:M)
       (fun e => e = Singular /\ \det (mx N N A) = 0)
       (LU_InverseATA nbT nbT2 stA stB istrans N LUx P).
Proof.
  case: istrans => Hf; have [Hs HP HLU _] := Hf; rewrite /LU_InverseATA.
  - have D0 : (exists i, (i < N)%N /\ LUx i i = 0) -> \det (mx N N A) = 0.
      by move/(det0P Hf); rewrite trm_mx det_tr.
    apply: post_bind; have := C26_inverse false N LUx nbTP.
    case: (TriInverse _ _ _ _) => [V|e|] //=; last by case=> -> [_ h]; split=> //; exact: D0.
    move=> [/inv_upper h1 _]; apply: post_bind.
    have := TriLDivEqMUP nbTP nbT2P (trst stA) stB true N N (trm LUx) (utuc N V).
    case: (TriLDivEqMU _ _ _ _ _ _ _ _ _) => [Y|e|] //=; last by case=> _ [].
    move=> [/mx_mulP h2 _]; apply: post_bind.
    have := C26_matrix_right false stA stB true N N (cnj LUx) Y nbTP nbT2P.
    case: (TriRDivEqM _ _ _ _ _ _ _ _ _ _) => [Z|e|] //=; last by case=> _ [].
    move=> [/mx_mulP h3 _].
    rewrite lower_trm in h2; rewrite lower_cnj in h3; rewrite mx_utuc in h2.
    set W := trm _; apply: ata_trans.
    set M := mx N N (trm A) in HLU *.
    have e1 : mx N N Z *m cmx (mx N N (lower true LUx)) *m cmx (mx N N (upper false LUx)) = mx N N W *m cmx M.
      rewrite /W -(revcolsC _ _ Hs) -mulmxA -cmxM HLU; congr (_ *m _).
      by apply/matrixP => i j; rewrite !mxE.
    have e2 : M^T *m mx N N (revpermrows N P 0 N W) = (mx N N (upper false LUx))^T *m (mx N N (lower true LUx))^T *m mx N N W.
      have := @revcols C N N P (trm A) s (trm W) Hs.
      have -> : mx N N (trm (revpermrows N P 0 N (trm (trm W)))) = (mx N N (revpermrows N P 0 N W))^T.
        by apply/matrixP => i j; rewrite !mxE.
      rewrite -HLU trm_mx => /(congr1 trmx); rewrite !trmx_mul !trmxK => e.
      by rewrite /M -e.
    rewrite e2 -!mulmxA -e1 h3 !mulmxA -(mulmxA _ _ (mx N N Y)) h2 -mulmxA.
    rewrite -mulmxA -cmxM h1 cmx1 mulmx1 -trmx_mul h1 trmx1 //.
  - have D0 := det0P Hf.
    apply: post_bind; have := C26_inverse_lower true N LUx nbTP.
    case: (TriInverseL _ _ _ _) => [V|e|] //=; last by case=> _ [].
    move=> [/inv_lower h1 _]; apply: post_bind.
    have := TriLDivEqMUP nbTP nbT2P stA stB false N N LUx (lladj N V).
    case: (TriLDivEqMU _ _ _ _ _ _ _ _ _) => [Y|e|] //=; last by case=> -> [_ h]; split=> //; exact: D0.
    move=> [/mx_mulP h2 _].
    have := C26_matrix_right false (trst stA) stB false N N (adj LUx) Y nbTP nbT2P.
    case: (TriRDivEqM _ _ _ _ _ _ _ _ _ _) => [X|e|] //=.
      2: { case=> -> [_ [i [Hi Z]]]; split=> //; apply: D0; exists i; split=> //.
           by move: Z; rewrite /adj /trm /cnj => /eqP; rewrite conjC_eq0 => /eqP. }
    move=> [/mx_mulP h3 _].
    rewrite upper_adj in h3; rewrite mx_lladj in h2.
    apply: (ata_direct HLU); rewrite ctrM -!mulmxA (mulmxA (mx N N X)) h3.
    rewrite (mulmxA (mx N N (upper false LUx))) h2 !mulmxA (mulmx1C h1) mul1mx.
    by rewrite -ctrM (mulmx1C h1) ctr1.
Qed.
End Dense.

(** The right inverse of a unit lower triangle is one. *)
Lemma linv_lower N (L E : fm C) : mx N N (lower true L) *m mx N N E = 1%:M ->
  mx N N (lower true E) = mx N N E.
Proof.
  move=> h; have H r : forall c, (r < N)%N -> (r <= c < N)%N -> E r c = (r == c)%:R.
    elim: r {-2}r (leqnn r) => [|n IH] r Hr c HrN Hc; move/matrixP/(_ (Ordinal HrN) (Ordinal (proj2 (andP Hc)))): (h);
      rewrite mx_mulE !mxE -val_eqE /= => <-; rewrite (bigD1 (Ordinal HrN)) //= lower_diag mul1r.
      rewrite big1 ?addr0 // => k /eqP Nk; rewrite lower_lt ?mul0r //.
      have : k != r :> nat by apply/eqP => e; apply: Nk; apply: val_inj.
      by lia.
    rewrite big1 ?addr0 // => k /eqP Nk; have Nk' : k != r :> nat by apply/eqP => e; apply: Nk; apply: val_inj.
    case: (ltnP k r) => Hk; last by rewrite lower_lt ?mul0r //; lia.
    have Z := IH k ltac:(lia) c ltac:(lia) ltac:(lia).
    have E0 : (nat_of_ord k == c) = false by lia.
    by rewrite Z E0 mulr0.
  apply: mx_ext => i j Hi Hj; rewrite /lower; case: (ltngtP i j) => // Hij; first by rewrite H ?ltn_eqF //; lia.
  by rewrite Hij H ?eqxx //; lia.
Qed.

Section Band.
Variables (N nlo nhi : nat) (A V : fm C) (P : nat -> nat) (s : 'S_N) (istrans : bool).
Hypotheses (HN : (0 < N)%N) (Hlo : (nlo < N)%N) (Hhi : (nhi < N)%N).
Hypothesis Hf : @blufacts C N nlo nhi (if istrans then trm A else A) V P s.
Variables (nb : nat) (stA stB : stor).
Hypothesis nbP : (0 < nb)%N.

Lemma D0 : (exists i, (i < N)%N /\ V i i = 0) -> \det (mx N N A) = 0.
Proof. by move/(bdet0P Hf); case: (istrans) => //; rewrite trm_mx det_tr. Qed.

(** The inverse of the upper band, as used by LU_Inverse and here. *)
Lemma uinvP M0 :
  post (fun X => mx N N (upper false X) *m Uof N nhi V = 1%:M)
       (fun e => e = Singular /\ \det (mx N N A) = 0)
       (BTriInverse nb false N nhi (invinit N nhi V M0)).
Proof.
  set m := invinit _ _ _ _.
  have mE i j : (i < N)%N -> (j < N)%N -> m i j = upb false nhi V i j.
    move=> Hi Hj; rewrite /m /invinit Hi Hj /= /upb /upper; case: (ltngtP i j) => // [h|->] //.
  have := @BTriInverseP C nb nbP false N nhi m (fun _ => erefl) ltac:(by move=> i j Hi Hj Hij; rewrite mE ?upb_out //; lia).
  case: (BTriInverse _ _ _ _ _) => [X|e|] //=; last first.
    case=> -> [_ [i [Hi Z]]]; split=> //; apply: D0; exists i; split=> //.
    by rewrite -Z mE // upb_d.
  move=> [h1 h2]; apply: mulmx1C.
  apply/matrixP => i j; have Hi := ltn_ord i; have Hj := ltn_ord j; rewrite !mxE.
  have := h1 i j ltac:(lia) ltac:(lia); rewrite add0n big_mkord => h; transitivity ((nat_of_ord i == j)%:R : C) => //.
  rewrite -h; apply: eq_bigr => k _; rewrite !mxE; congr (_ * _).
  by rewrite /upper mE // /upb /upper; case: (ltngtP i k).
Qed.

Lemma BLU_InverseATAP M0 : (istrans \/ forall k, (k < N)%N -> P k = k) ->
  post (fun X => mx N N X *m ATA N A = 1%:M /\ ATA N A *m mx N N X = 1%:M)
       (fun e => e = Singular /\ \det (mx N N A) = 0)
       (BLU_InverseATA nb stA stB istrans N nlo nhi V P M0).
Proof.
  have [Hs HP HLU _] := Hf; move=> Hcase; rewrite /BLU_InverseATA.
  case: (istrans) Hf Hcase HLU => Hf' Hcase HLU.
  - apply: post_bind; apply: (post_imp _ _ (uinvP M0)) => // uinv h1 /=.
    apply: ata_trans.
    set Y1 := utuc N uinv; set T := PackedPL_RDivEq N nlo N V P (trm Y1).
    have Ef := fwdA HN Hlo Hhi Hf'.
    have [e1 _] := PLR HN Hlo Hhi Hf' N (trm Y1) (trm A).
    have [e2 _] := PLR HN Hlo Hhi Hf' N (cnj (trm T)) (trm A).
    rewrite Ef -/T in e1; rewrite Ef in e2.
    rewrite mx_cnj -mulmxA -cmxM e2 cmxM mx_cnj cmxK (trm_mx _ _ T) mulmxA -trmx_mul e1.
    rewrite (trm_mx _ _ Y1) trmx_mul trmxK mx_utuc.
    rewrite -!mulmxA -cmxM h1 cmx1 mulmx1 -trmx_mul h1 trmx1 //.
  - have {}Hcase : forall k, (k < N)%N -> P k = k by case: Hcase.
    have s1 : s = 1%g.
      by apply/permP => i; apply: val_inj => /=; rewrite perm1; have := Hs i; rewrite psig_id.
    set E := PackedPL_LDivEq N nlo N V P _.
    have [e1 _] := PLL HN Hlo Hhi Hf' N (fun i j => (i == j)%:R).
    have h1 : Lof N nlo V P *m mx N N E = 1%:M.
      have HP' k : (k < N)%N -> (k <= P k < N)%N by move=> Hk; have := HP k Hk; lia.
      rewrite /E e1 (fwdmP nlo V N _ HN HP' Hs).
      by rewrite s1 row_perm1; apply/matrixP => i j; rewrite !mxE.
    have low : mx N N (lower true E) = mx N N E.
      exact: (linv_lower h1).
    rewrite -/E; apply: post_bind.
    have := BTriLDivEqMUP stA stB false N nhi N V (lladj N E).
    case: (BTriLDivEqMU _ _ _ _ _ _ _ _) => [Y|e|] //=; last by case=> -> [_ h]; split=> //; exact: D0.
    move=> [/mx_mulP h2 _]; apply: post_bind.
    have := BTriLDivEqMUP stA (trst stB) false N nhi N V (adj Y).
    case: (BTriLDivEqMU _ _ _ _ _ _ _ _) => [Z|e|] //=; last by case=> -> [_ h]; split=> //; exact: D0.
    move=> [/mx_mulP h3 _].
    rewrite mx_lladj low in h2.
    apply: (ata_direct HLU); rewrite ctrM mx_adj -!mulmxA (mulmxA (ctr (mx N N Z))) -ctrM.
    have -> : Uof N nhi V *m mx N N Z = ctr (mx N N Y) by rewrite -mx_adj -h3.
    rewrite ctrK (mulmxA (Uof N nhi V)).
    have -> : Uof N nhi V *m mx N N Y = mx N N E *m ctr (mx N N E) by rewrite -h2.
    by rewrite !mulmxA h1 mul1mx -ctrM h1 ctr1.
Qed.
End Band.
End Proofs.
