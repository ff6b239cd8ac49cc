(** The singular value decomposition from the bidiagonal form. *)
From Coq Require Import Ring Field.
From Verif Require Import Base FMat RowPerm LUDiv RingTac Cplx Givens QRProofs Claims_QR Claims_SVD BidiagProofs BidiagQR BidiagQRProofs BidiagSweep Bidiag22 BidiagLoop BidiagIter.
From mathcomp Require Import all_ssreflect all_fingroup all_algebra zify.
Set Implicit Arguments. Unset Strict Implicit. Unset Printing Implicit Defensive.
Import GRing.Theory Num.Theory Order.Theory.
Local Open Scope ring_scope.

Section Proofs.
Variable C : numClosedFieldType.
Implicit Types (x y : C) (X U B V : fm C) (D E : fv C) (st : bst C).
Variables M N P : nat.
Variable under : C -> bool.
Hypothesis underE : forall x, under x = (x == 0).
Variables (dclim esz : nat).
Variable dc : nat -> nat -> bst C -> run (bst C).

(** The algorithm used above DC_LIMIT keeps the product and clears E. *)
Definition dc_contract : Prop := forall (A0 : 'M[C]_(M, P)) o n st, (dclim < n)%N -> Inv N A0 st ->
  iso N o n (sE st) -> nzD o n st -> post N A0 esz o n st (dc o n st).
Hypothesis dcP : dc_contract.

(** sort puts the elements in descending order, by a permutation of [0,n). *)
Definition sorts_desc (srt : nat -> fv C -> nat -> nat) : Prop := forall n D, (forall i, (i < n)%N -> D i \is Num.real) ->
  (forall k, (k < n)%N -> (srt n D k < n)%N) /\
  (forall k, (k.+1 < n)%N -> D (psig (srt n D) 0 n k.+1) <= D (psig (srt n D) 0 n k)).
Variable srt : nat -> fv C -> nat -> nat.
Hypothesis srtP : sorts_desc srt.

Lemma maxelP n (v : fv C) : 0 <= maxel n v /\ forall i, (i < n)%N -> `|v i| <= maxel n v.
Proof.
  rewrite /maxel; elim: n => [|n [h1 h2]]; first by split.
  rewrite foldl_iotaS; set m := foldl _ _ _ in h1 h2 *.
  have [k1 [k2 _]] := max2P (ger0_real h1) (normr_real (v n)).
  split; first exact: le_trans k1.
  move=> i hi; case: (i =P n) => [->//|hn]; apply: le_trans k1; apply: h2; lia.
Qed.

Definition decomposed (A0 : 'M[C]_(M, P)) st : Prop :=
  [/\ orthonormal M N (sU st), rows_orthonormal N P (sV st),
      (forall k, (k < N)%N -> 0 <= sD st k), (forall k, (k.+1 < N)%N -> sD st k.+1 <= sD st k) &
      (forall (i : 'I_M) (j : 'I_P), A0 i j = usv N (sU st) (sD st) (sV st) i j) /\
      (forall i, (i.+1 < N)%N -> sE st i = 0)].

Lemma inv_orth (A0 : 'M[C]_(M, P)) U B V : inv N A0 U B V -> orthonormal M N U /\ rows_orthonormal N P V.
Proof.
  case=> h1 h2 _; split=> [c c' hc hc'|k k' hk hk'].
    move/matrixP: h1 => /(_ (Ordinal hc) (Ordinal hc')); rewrite !mxE -val_eqE /= => <-.
    by apply: eq_bigr => i _; rewrite !mxE.
  move/matrixP: h2 => /(_ (Ordinal hk) (Ordinal hk')); rewrite !mxE -val_eqE /= => <-.
  by apply: eq_bigr => i _; rewrite !mxE.
Qed.
Lemma inv_usv (A0 : 'M[C]_(M, P)) U D E V : inv N A0 U (bidi D E) V -> (forall i, (i.+1 < N)%N -> E i = 0) ->
  forall (i : 'I_M) (j : 'I_P), A0 i j = usv N U D V i j.
Proof.
  case=> _ _ <- hE i j; rewrite !mxE; apply: eq_bigr => l _; rewrite !mxE (bigD1 l) //= big1 ?addr0.
    by rewrite !mxE /bidi eqxx.
  move=> k hk; rewrite !mxE /bidi.
  case: eqP => [e|_]; first by case/eqP: hk; apply: val_inj.
  case: eqP => [e|_]; last by rewrite mulr0.
  by rewrite hE ?mulr0 // e.
Qed.

Lemma FromBidiagonalP (A0 : 'M[C]_(M, P)) fuel st : (0 < N)%N -> Inv N A0 st ->
  match FromBidiagonal 0 under dclim dc M P esz srt fuel N st with
  | Done st' => decomposed A0 st'
  | Outside => (esz < N)%N
  | More => True
  end.
Proof.
  move=> n0 [hi [r1 r2]]; rewrite /FromBidiagonal underE.
  have [mE1 mE2] := maxelP (N - 1) (sE st); have [mD1 mD2] := maxelP N (sD st).
  have [k1 [k2 k3]] := max2P (ger0_real mE1) (ger0_real mD1).
  move: (max2 _ _) k1 k2 k3 => sc k1 k2 k3; have sc0 : 0 <= sc by exact: le_trans k1.
  case: eqP => [es|/eqP ns].
    have zE i : (i.+1 < N)%N -> sE st i = 0.
      move=> h; apply/eqP; rewrite -normr_eq0 eq_le normr_ge0 andbT -es; apply: le_trans k1; apply: mE2; lia.
    have zD i : (i < N)%N -> sD st i = 0.
      by move=> h; apply/eqP; rewrite -normr_eq0 eq_le normr_ge0 andbT -es; apply: le_trans k2; exact: mD2.
    have [o1 o2] := inv_orth hi.
    split; cbn [sU sD sE sV] => //.
    - by move=> k ->.
    - by move=> k hk; rewrite hk (ltnW hk).
    - split; last by move=> i hi'; have -> : (i < N - 1)%N by lia.
      move=> i j; rewrite (inv_usv hi zE); apply: eq_bigr => l _; by rewrite ltn_ord zD.
  have scp : 0 < sc by rewrite lt_def ns.
  set st1 := St _ _ _ _.
  have iv1 : Inv N (sc^-1 *: A0) st1.
    split; last first.
      split=> i h; rewrite /st1; cbn [sD sE].
        by rewrite h rpred_div // r1.
      have -> : (i < N - 1)%N by lia.
      by rewrite rpred_div // r2.
    case: hi => h1 h2 h3; split=> //; cbn [sU sD sE sV].
    rewrite -h3 scalemxAl scalemxAr; congr (_ *m _ *m _); apply/matrixP => i j; rewrite !mxE /st1; cbn [sD sE]; rewrite /bidi.
    case: eqP => [_|_]; first by rewrite ltn_ord mulrC.
    case: eqP => [e|_]; last by rewrite mulr0.
    have -> : (i < N - 1)%N by have := ltn_ord j; lia.
    by rewrite mulrC.
  have hs1 : iso N 0 N (sE st1) by split=> //; lia.
  have [_ [HD _]] := loops underE (dcP (A0 := sc^-1 *: A0)) fuel.
  have := HD 0%N N st1 iv1 hs1; case: (DoDec _ _ _ _ _ _ _ _ _ _ _) => // st2 [iv2 f2 z2]; cbn [bindR].
  have hs2 : iso N 0 N (sE st2) by split=> //; lia.
  have z2' j : (0 <= j)%N -> (j.+1 < 0 + N)%N -> sE st2 j = 0 by move=> _ h; apply: z2.
  have [iv3 _ e3 p3] := MakePosP iv2 hs2 z2'.
  move: (MakePos _ _ _ _) iv3 e3 p3 => st3 [hi3 [r31 _]] e3 p3.
  have [g1 g2] := srtP r31; set p := srt N (sD st3) in g1 g2 *.
  have [s [Hs _]] := @psig_perm N p 0 N ltac:(by move=> k Hk; have := g1 k; lia).
  have [o1 o2] := inv_orth hi3.
  have z3 i : (i.+1 < N)%N -> sE st3 i = 0 by move=> h; rewrite e3; apply: z2.
  have us := inv_usv hi3 z3.
  have inj c c' (hc : (c < N)%N) (hc' : (c' < N)%N) : (s (Ordinal hc) == s (Ordinal hc') :> nat) = (c == c').
    by rewrite val_eqE (inj_eq perm_inj) -val_eqE.
  split; cbn [sU sD sE sV] => //.
  - move=> c c' hc hc'; rewrite -(inj _ _ hc hc') -o1 //; apply: eq_bigr => i _.
    by rewrite /trm !permrowsE ltn_ord -(Hs (Ordinal hc)) -(Hs (Ordinal hc')).
  - move=> c c' hc hc'; rewrite -(inj _ _ hc hc') -o2 //; apply: eq_bigr => i _.
    by rewrite !permrowsE ltn_ord -(Hs (Ordinal hc)) -(Hs (Ordinal hc')).
  - by move=> k hk; rewrite hk mulr_ge0 // (Hs (Ordinal hk)); apply: (p3 _ (ltn_ord _)).
  - move=> k hk; rewrite hk (ltnW hk) ler_wpmul2r //; exact: g2.
  split=> // i j.
  have -> : A0 i j = sc * (sc^-1 *: A0) i j by rewrite mxE mulrA mulfV // mul1r.
  rewrite us /usv big_distrr /= (reindex_inj (@perm_inj _ s)); apply: eq_bigr => l _.
  by rewrite /trm !permrowsE !ltn_ord Hs !mulrA [sc * _]mulrC -!mulrA; congr (_ * _); rewrite !mulrA; congr (_ * _); rewrite mulrC.
Qed.
End Proofs.
