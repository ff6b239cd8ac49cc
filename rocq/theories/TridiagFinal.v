(** The loops of the eigenvalue iteration, the scaling and the sorting. *)
From Coq Require Import Ring Field.
From Verif Require Import Base FMat RowPerm LUDiv RingTac Cplx Givens QRProofs Claims_QR BidiagProofs BidiagQR BidiagQRProofs Bidiag22 BidiagIter BidiagFinal
  Perm PermSpec PermProofs Sort Claims_Sort SVDecompose SVSort TridiagQR TridiagQRProofs.
From mathcomp Require Import all_ssreflect all_fingroup all_algebra zify.
Set Implicit Arguments. Unset Strict Implicit. Unset Printing Implicit Defensive.
Import GRing.Theory Num.Theory Order.Theory.
Local Open Scope ring_scope.

Section Proofs.
Variable C : numClosedFieldType.
Implicit Types (c s x y : C) (X U B V : fm C) (D E : fv C) (st : tst C).
Variables M N : nat.
Variable A0 : 'M[C]_(M, M).
Variable under : C -> bool.
Hypothesis underE : forall x, under x = (x == 0).
Local Notation InvT := (@InvT C M N A0).
Local Notation isoT := (@isoT C N).

Lemma updv0 D i : D i = 0 -> forall j, updv D i 0 j = D j.
Proof. by move=> h j; rewrite /updv; case: eqP => // ->. Qed.

(** With eps = 0 the chop changes nothing. *)
Lemma hchop_stepE p k D E : (forall i, (hchop_step 0 under p k (D, E)).1 i = D i) /\
  (forall i, (hchop_step 0 under p k (D, E)).2 i = E i).
Proof.
  rewrite /hchop_step; set D1 := (if under _ then _ else _).
  have hD j : D1 j = D j.
    by rewrite /D1 underE; case: eqP => // h; apply: updv0.
  have hE : forall j, (if ~~ (0 * (`|D1 (p + k).+1| + `|D1 (p + k)%N|) < `|E (p + k)%N|) || under (E (p + k)%N)
      then updv E (p + k) 0 else E) j = E j.
    move=> j; case: ifP => // h; apply: updv0; move: h; rewrite mul0r underE normr_gt0 negbK orbb.
    by move/eqP.
  set E1 := (if ~~ _ || _ then _ else _) in hE *; rewrite sqrtC0 mul0r.
  have -> : (`|E1 (p + k)%N| < 0) = false by apply/negbTE; rewrite -real_leNgt ?normr_ge0 ?normr_real ?real0.
  by split.
Qed.
Lemma HChopE p n st : [/\ tU (HChop 0 under p n st) = tU st,
  (forall i, tD (HChop 0 under p n st) i = tD st i) & (forall i, tE (HChop 0 under p n st) i = tE st i)].
Proof.
  rewrite /HChop; set D1 := (if under _ then _ else _).
  have hD j : D1 j = tD st j.
    by rewrite /D1 underE; case: eqP => // h; apply: updv0.
  set f := foldl _ _ _; have [h1 h2] : (forall i, f.1 i = tD st i) /\ (forall i, f.2 i = tE st i).
    rewrite /f {f}; elim: (n - 1)%N => [|m [IH1 IH2]] //.
    rewrite foldl_iotaS; move: (foldl _ _ _) IH1 IH2 => [D E] IH1 IH2.
    have [k1 k2] := hchop_stepE p m D E; split=> i; [rewrite k1|rewrite k2]; [exact: IH1|exact: IH2].
  by case: f h1 h2 => [D E].
Qed.
Lemma HChop_Inv p n st : InvT st -> InvT (HChop 0 under p n st).
Proof.
  have [h1 h2 h3] := HChopE p n st; case=> hi [r1 r2]; split; last first.
    by split=> i hi'; rewrite ?h2 ?h3; [apply: r1|apply: r2].
  by rewrite h1; apply: (invT_triE hi) => i _; rewrite ?h2 ?h3.
Qed.

Lemma frmT_trans o n o1 n1 o2 n2 st st1 st2 : (o <= o1)%N -> (o1 + n1 <= o + n)%N -> (o <= o2)%N -> (o2 + n2 <= o + n)%N ->
  frmT o1 n1 st st1 -> frmT o2 n2 st1 st2 -> frmT o n st st2.
Proof.
  move=> h1 h2 h3 h4 [f1 f2] [g1 g2]; split=> i hi.
    by rewrite g1 ?f1 //; lia.
  by rewrite g2 ?f2 //; lia.
Qed.
Lemma frmT_refl o n st : frmT o n st st. Proof. by []. Qed.
Lemma isoT_frm o n st st' : isoT o n (tE st) -> frmT o n st st' -> isoT o n (tE st').
Proof. by case=> h1 h2 h3 h4 [_ f]; split=> // h; rewrite f ?h3 ?h4 //; lia. Qed.

(** What the algorithms do with the n rows from o on. *)
Definition postT (o n : nat) st (r : run (tst C)) : Prop :=
  match r with
  | Done st' => [/\ InvT st', frmT o n st st' & forall j, (o <= j)%N -> (j.+1 < o + n)%N -> tE st' j = 0]
  | Outside => False
  | More => True
  end.

Lemma HQRP fuel o n q st : InvT st -> isoT o n (tE st) -> (q < n)%N ->
  (forall j, (o + q <= j)%N -> (j.+1 < o + n)%N -> tE st j = 0) -> postT o n st (HQR 0 under M fuel o q st).
Proof.
  elim: fuel q st => [|f IH] q st hi hs hq hz //=.
  case: q hq hz => [|q] hq hz; first by split=> // j h1 h2; apply: hz => //; lia.
  case: eqP => [e|/eqP ne].
    apply: IH => // [|j h1 h2]; first lia.
    by case: (j =P (o + q)%N) => [->//|hn]; apply: hz => //; lia.
  have := srchP (fun p => tE st (o + p - 1)%N != 0) q; set p := srch _ q; case=> hp hc hp0.
  have [n0 hn s1 s2] := hs.
  have hs1 : isoT (o + p) (q.+1 - p + 1) (tE st).
    split; [lia|lia| |].
      case: (posnP p) => [e0|p0] hop; first by rewrite e0 addn0; apply: s1; lia.
      by have /negPn/eqP := hp0 p0; have -> : (o + p - 1)%N = (o + p).-1 by lia.
    have -> : (o + p + (q.+1 - p + 1)).-1 = (o + q.+1)%N by lia.
    move=> h; case: (ltnP q.+2 n) => hqn; first by apply: hz; lia.
    have -> : (o + q.+1)%N = (o + n).-1 by lia.
    by apply: s2; lia.
  have [i1 f1] := HReduceP hs1 hi.
  have i2 := HChop_Inv (o + p) (q.+1 - p + 1) i1.
  have [k1 k2 k3] := HChopE (o + p) (q.+1 - p + 1) (HReduce 0 M (o + p) (q.+1 - p + 1) st).
  set st2 := HChop _ _ _ _ _ in i2 k1 k2 k3 *.
  have f2 : frmT (o + p) (q.+1 - p + 1) st st2.
    by case: f1 => [a1 a2]; split=> i h; rewrite ?k2 ?k3 ?a1 ?a2.
  have f3 : frmT o n st st2.
    by apply: (frmT_trans _ _ _ _ f2 (frmT_refl (o + p) (q.+1 - p + 1) st2)); lia.
  have hs3 := isoT_frm hs f3.
  have hz3 j : (o + q.+1 <= j)%N -> (j.+1 < o + n)%N -> tE st2 j = 0.
    by move=> h1 h2; case: f2 => _ f2; rewrite f2 ?hz //; lia.
  have := IH q.+1 st2 i2 hs3 hq hz3; case: (HQR _ _ _ _ _ _ _) => //= st4 [a1 a2 a3]; split=> //.
  exact: (frmT_trans _ _ _ _ f3 a2).
Qed.

Variable dclim : nat.
Variable dc : nat -> nat -> tst C -> run (tst C).
Hypothesis dcP : forall o n st, (dclim < n)%N -> InvT st -> isoT o n (tE st) ->
  (forall j, (o <= j)%N -> (j.+1 < o + n)%N -> tE st j != 0) -> postT o n st (dc o n st).

Lemma HLoopP fuel q st : InvT st -> (q < N)%N -> (forall j, (q <= j)%N -> (j.+1 < N)%N -> tE st j = 0) ->
  postT 0 N st (HLoop 0 under dclim dc M fuel q st).
Proof.
  elim: fuel q st => [|f IH] q st hi hq hz //=.
  case: q hq hz => [|q] hq hz; first by split=> // j h1 h2; apply: hz => //; lia.
  case: eqP => [e|/eqP ne].
    apply: IH => // [|j h1 h2]; first lia.
    by case: (j =P q) => [->//|hn]; apply: hz => //; lia.
  have := srchP (fun p => tE st (p - 1)%N != 0) q; set p := srch _ q; case=> hp hc hp0.
  have hs1 : isoT p (q.+1 - p + 1) (tE st).
    split; [lia|lia| |].
      by move=> p0; have /negPn/eqP := hp0 p0; rewrite subn1.
    have -> : (p + (q.+1 - p + 1)).-1 = q.+1 by lia.
    by move=> h; apply: hz; lia.
  have hnz : postT p (q.+1 - p + 1) st (HNZ 0 under dclim dc M f p (q.+1 - p + 1) st).
    rewrite /HNZ; case: leqP => hd.
      by apply: HQRP => // [|j h1 h2]; lia.
    apply: dcP => // j h1 h2; case: (j =P q) => [->//|hjq].
    by have := hc j.+1; rewrite subn1; apply; lia.
  case: (HNZ _ _ _ _ _ _ _ _ _) hnz => //= st1 [i1 f1 z1].
  have hz1 j : (p <= j)%N -> (j.+1 < N)%N -> tE st1 j = 0.
    move=> h1 h2; case: (ltnP j q.+1) => hj; first by apply: z1; lia.
    by case: f1 => _ f1; rewrite f1 ?hz //; lia.
  have hpN : (p < N)%N by lia.
  have := IH p st1 i1 hpN hz1; case: (HLoop _ _ _ _ _ _ _ _) => //= st2 [a1 a2 a3]; split=> //.
  by apply: (frmT_trans _ _ _ _ f1 a2) => //; lia.
Qed.
Lemma HDoP fuel st : (0 < N)%N -> InvT st ->
  match HDo 0 under dclim dc M fuel N st with
  | Done st' => InvT st' /\ forall j, (j.+1 < N)%N -> tE st' j = 0
  | Outside => False | More => True end.
Proof.
  move=> n0 hi; rewrite /HDo; have i1 := HChop_Inv 0 N hi.
  have := @HLoopP fuel (N - 1) _ i1; case: (HLoop _ _ _ _ _ _ _ _) => [st'||] h //.
    by case: h => [|j h1 h2|h1 _ h2]; [lia|exfalso; lia|split=> // j hj; apply: h2].
  by apply: h => [|j h1 h2]; lia.
Qed.
End Proofs.

Section Sorted.
Variable C : numClosedFieldType.
Implicit Types (U : fm C) (D : fv C).
Variable stdsort : (C * nat -> C * nat -> bool) -> list (C * nat) -> list (C * nat).
Hypothesis srtP : std_sort_contract stdsort.

Definition inorder (ad : adtype) (x y : C) : Prop := match ad with Ascend => x <= y | Descend => y <= x end.

Lemma sortkP key ad n D : (forall x, x \is Num.real -> key x \is Num.real) -> (forall i, (i < n)%N -> D i \is Num.real) ->
  (forall k, (k < n)%N -> (sortk stdsort key ad n D k < n)%N) /\
  (forall k, (k.+1 < n)%N -> inorder ad (key (D (psig (sortk stdsort key ad n D) 0 n k))) (key (D (psig (sortk stdsort key ad n D) 0 n k.+1)))).
Proof.
  move=> hkey r; rewrite /sortk.
  have hn : (length (map D (iota 0 n)) = n)%N by rewrite -[length _]/(size _) size_map size_iota.
  have hb : (length (map D (iota 0 n)) <= length (nseq n 0%N))%coq_nat.
    by rewrite hn -[length _]/(size _) size_nseq.
  have ho (a b : C) : ('Re (- a) < 'Re (- b)) = ('Re b < 'Re a).
    by rewrite !raddfN ltr_oppl opprK.
  have [P [w [-> [or [_ [lg ap]]]]]] := C07_sort_with_permutation C C key -%R _ stdsort ad _ _ (@re_strict_weak C) ho srtP hb.
  rewrite hn in lg ap.
  have [w' [ap' [_ nw]]] := perm_apply_ok _ _ (legal_in_range _ lg) hn.
  have ew : w' = w by move: ap'; rewrite ap => -[].
  subst w'; split.
    by move=> k hk; have := in_range_pfun _ (legal_in_range _ lg) k; move/ssrnat.ltP: hk => hk /(_ hk) /ssrnat.ltP.
  move=> k hk.
  have lt j : (j < n)%N -> (psig (pfun P) 0 n j < n)%N.
    move=> hj; have /ssrnat.ltP := src_lt _ j (legal_in_range _ lg) (ltac:(by apply/ssrnat.ltP)).
    by rewrite /src /= down_psig.
  have nt j : (j < n)%N -> List.nth_error w j = Some (D (psig (pfun P) 0 n j)).
    move=> hj; rewrite nw; last by apply/ssrnat.ltP.
    by rewrite /src /= down_psig nth_error_map_iota // lt.
  have := or k k.+1 _ _ _ (nt _ (ltnW hk)) (nt _ hk).
  move=> /(_ ltac:(lia)) h.
  have r1 := hkey _ (r _ (lt _ hk)); have r2 := hkey _ (r _ (lt _ (ltnW hk))).
  case: ad or h => _ /=; rewrite (Creal_ReP _ r1) (Creal_ReP _ r2) => h; by rewrite real_leNgt // h.
Qed.

(** A0 = U D U^dagger. *)
Definition dec M N (A0 : 'M[C]_M) U D : Prop :=
  [/\ orthonormal M N U, (forall i, (i < N)%N -> D i \is Num.real) &
      forall i j : 'I_M, A0 i j = \sum_(l < N) U i l * D l * (U j l)^*].
Lemma sortUDP M N (A0 : 'M[C]_M) key ad U D : (forall x, x \is Num.real -> key x \is Num.real) -> dec N A0 U D ->
  dec N A0 (sortUD M stdsort key ad N U D).1 (sortUD M stdsort key ad N U D).2 /\
  forall k, (k.+1 < N)%N -> inorder ad (key ((sortUD M stdsort key ad N U D).2 k)) (key ((sortUD M stdsort key ad N U D).2 k.+1)).
Proof.
  move=> hkey [o1 r f]; rewrite /sortUD; cbn [fst snd]; have [g1 g2] := sortkP ad hkey r; set p := sortk _ _ _ _ _ in g1 g2 *.
  have [s [Hs _]] := @psig_perm N p 0 N ltac:(by move=> k Hk; have := g1 k; lia).
  have inj c c' (hc : (c < N)%N) (hc' : (c' < N)%N) : (s (Ordinal hc) == s (Ordinal hc') :> nat) = (c == c').
    by rewrite val_eqE (inj_eq perm_inj) -val_eqE.
  split; last by move=> k hk; rewrite hk (ltnW hk); apply: g2.
  split.
  - move=> c c' hc hc'; rewrite -(inj _ _ hc hc') -o1 //; apply: eq_bigr => i _.
    by rewrite /trm !permrowsE ltn_ord -(Hs (Ordinal hc)) -(Hs (Ordinal hc')).
  - by move=> i hi; rewrite hi (Hs (Ordinal hi)); apply: r.
  - move=> i j; rewrite f (reindex_inj (@perm_inj _ s)); apply: eq_bigr => l _.
    by rewrite /trm !permrowsE !ltn_ord Hs.
Qed.

Lemma InvT_dec M N (A0 : 'M[C]_M) st : InvT N A0 st -> (forall j, (j.+1 < N)%N -> tE st j = 0) -> dec N A0 (tU st) (tD st).
Proof.
  move=> [hi [r1 r2]] hz; have [o1 _] := inv_orth hi; split=> // i j.
  case: hi => _ _ <-; rewrite !mxE; apply: eq_bigr => l _; rewrite !mxE (bigD1 l) //= big1 ?addr0.
    by rewrite !mxE /tri eqxx.
  move=> k hk; rewrite !mxE /tri.
  case: eqP => [e|_]; first by case/eqP: hk; apply: val_inj.
  case: eqP => [e|_]; first by rewrite hz ?mulr0 // e.
  case: eqP => [e|_]; last by rewrite mulr0.
  by rewrite hz ?mulr0 // e.
Qed.

Variable under : C -> bool.
Hypothesis underE : forall x, under x = (x == 0).
Variables (M N dclim : nat).
Variable dc : nat -> nat -> tst C -> run (tst C).
(** The algorithm used above DC_LIMIT keeps the product and clears E. *)
Definition dcT_contract : Prop := forall (A0 : 'M[C]_M) o n st, (dclim < n)%N -> InvT N A0 st -> isoT N o n (tE st) ->
  (forall j, (o <= j)%N -> (j.+1 < o + n)%N -> tE st j != 0) -> postT N A0 o n st (dc o n st).
Hypothesis dcP : dcT_contract.

Lemma EigenFromTridiagonalP (A0 : 'M[C]_M) fuel st : (0 < N)%N -> InvT N A0 st ->
  match EigenFromTridiagonal 0 under dclim dc M stdsort fuel N st with
  | Done st' => dec N A0 (tU st') (tD st') /\ forall k, (k.+1 < N)%N -> `|tD st' k.+1| <= `|tD st' k|
  | Outside => False
  | More => True
  end.
Proof.
  move=> n0 iv; rewrite /EigenFromTridiagonal underE; have -> : (N == 0%N) = false by lia.
  have [mE1 mE2] := maxelP (N - 1) (tE st); have [mD1 mD2] := maxelP N (tD st).
  have [k1 [k2 k3]] := max2P (ger0_real mD1) (ger0_real mE1).
  move: (max2 _ _) k1 k2 k3 => sc k1 k2 k3; have sc0 : 0 <= sc by exact: le_trans k1.
  case: eqP => [es|/eqP ns].
    have zE i : (i.+1 < N)%N -> tE st i = 0.
      move=> h; apply/eqP; rewrite -normr_eq0 eq_le normr_ge0 andbT -es; apply: le_trans k2; apply: mE2; lia.
    have zD i : (i < N)%N -> tD st i = 0.
      by move=> h; apply/eqP; rewrite -normr_eq0 eq_le normr_ge0 andbT -es; apply: le_trans k1; exact: mD2.
    have [o1 _ f] := InvT_dec iv zE; split; cbn [tU tD tE].
      split=> // [i ->|i j]; first exact: real0.
      by rewrite f; apply: eq_bigr => l _; rewrite ltn_ord zD.
    by move=> k hk; rewrite hk (ltnW hk).
  have scp : 0 < sc by rewrite lt_def ns.
  set st1 := TS _ _ _.
  have iv1 : InvT N (sc^-1 *: A0) st1.
    case: iv => hi [r1 r2]; split; last first.
      split=> i h; rewrite /st1; cbn [tD tE].
        by rewrite h rpred_div // r1.
      have -> : (i < N - 1)%N by lia.
      by rewrite rpred_div // r2.
    case: hi => h1 h2 h3; split=> //; cbn [tU tD tE].
    rewrite -h3 scalemxAl scalemxAr; congr (_ *m _ *m _); apply/matrixP => i j; rewrite !mxE /tri /st1; cbn [tD tE].
    case: eqP => [_|_]; first by rewrite ltn_ord mulrC.
    case: eqP => [e|_].
      have -> : (i < N - 1)%N by have := ltn_ord j; lia.
      by rewrite mulrC.
    case: eqP => [e|_]; last by rewrite mulr0.
    have -> : (j < N - 1)%N by have := ltn_ord i; lia.
    by rewrite mulrC.
  have := HDoP underE (dcP (A0 := sc^-1 *: A0)) fuel n0 iv1.
  case: (HDo _ _ _ _ _ _ _ _) => // st2 [iv2 z2]; cbn [bindR].
  have rn (x : C) : x \is Num.real -> `|x| \is Num.real by move=> _; exact: normr_real.
  have := sortUDP Descend rn (InvT_dec iv2 z2).
  case: (sortUD _ _ _ _ _ _ _) => U' D'; cbn [fst snd tU tD] => -[[o1 r f] od]; split; last first.
    move=> k hk; rewrite hk (ltnW hk) !normrM; apply: ler_wpmul2r; [exact: normr_ge0|exact: (od k hk)].
  split=> // [i hi|i j]; first by rewrite hi rpredM // r.
  have -> : A0 i j = sc * (sc^-1 *: A0) i j by rewrite mxE mulrA mulfV // mul1r.
  rewrite f big_distrr /=; apply: eq_bigr => l _; rewrite ltn_ord.
  by rewrite !mulrA [sc * _]mulrC -!mulrA; congr (_ * _); rewrite !mulrA; congr (_ * _); rewrite mulrC.
Qed.
End Sorted.
