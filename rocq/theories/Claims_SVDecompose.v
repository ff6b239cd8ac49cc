(** C52, second half: the singular value decomposition itself. *)
From Verif Require Import Base FMat TriSolve RowPerm LUDiv Cplx Givens QR QRProofs QRDiv QRDivProofs Claims_QR SVDiv SVDivProofs Claims_SVD
  Bidiag BidiagProofs Claims_Bidiag BidiagQR BidiagQRProofs Bidiag22 BidiagIter BidiagFinal Perm Sort Claims_Sort SVDecompose SVSort.
From mathcomp Require Import all_ssreflect all_fingroup all_algebra all_field zify.
Set Implicit Arguments. Unset Strict Implicit. Unset Printing Implicit Defensive.
Import GRing.Theory Num.Theory Order.Theory.
Local Open Scope ring_scope.

Section Proofs.
Variable C : numClosedFieldType.
Variables (under : C -> bool) (dclim nb : nat).
Hypothesis underE : forall x, under x = (x == 0).
Hypothesis nb0 : (0 < nb)%N.
Variable dc : nat -> nat -> nat -> nat -> bst C -> run (bst C).
Variable stdsort : (C * nat -> C * nat -> bool) -> list (C * nat) -> list (C * nat).
Hypothesis srtP : std_sort_contract stdsort.

Lemma orthP m n (Q : fm C) : orthonormal m n Q <-> ctr (mx m n Q) *m mx m n Q = 1%:M.
Proof.
  split=> [h|/matrixP h c c' hc hc'].
    apply/matrixP => c c'; rewrite !mxE -val_eqE /= -h //; by apply: eq_bigr => i _; rewrite !mxE.
  by have := h (Ordinal hc) (Ordinal hc'); rewrite !mxE -val_eqE /= => <-; apply: eq_bigr => i _; rewrite !mxE.
Qed.
Lemma SV_directP fuel esz M N A Sv Vt w det : (0 < N)%N -> (N <= M)%N -> dc_contract M N N dclim esz (dc M N) ->
  match SV_direct 0 under dclim nb dc stdsort fuel esz M N A Sv Vt w det with
  | Ok (Some (U, Sv, Vt)) => is_svd M N A U Sv Vt
  | Ok None => True
  | UB => (esz < N)%N
  | Throw _ => False
  end.
Proof.
  move=> hN hM hdc; rewrite /SV_direct.
  have [U [D' [E' [V [d' [-> [[o1 o2 r1 r2 f] _]]]]]]] :=
    C52_bidiagonalize under A Vt (w_Z0 w) (w_Z1 w) (w_ub w) (w_vb w) Sv (w_E w) det nb0 hN hM.
  cbn [bindO]; set st := St U D' E' V.
  have iv : Inv N (mx M N A) st.
    split; last by split.
    split.
    - apply/matrixP => c c'; rewrite !mxE -val_eqE /= -o1 //; by apply: eq_bigr => i _; rewrite !mxE.
    - apply/matrixP => c c'; rewrite !mxE -val_eqE /= -o2 //; by apply: eq_bigr => i _; rewrite !mxE.
    - rewrite -mulmxA -!mx_prodm; apply/mx_eqP => i j hi hj; rewrite f //.
      apply: eq_bigr => k _; congr (_ * _); apply: eq_bigr => l _; congr (_ * _); exact: bidi_spec.
  have := FromBidiagonalP underE hdc (sortpP srtP) fuel hN iv.
  case: (FromBidiagonal _ _ _ _ _ _ _ _ _ _ _) => // st' [h1 h2 h3 h4 [h5 _]]; cbn [bindR toR].
  rewrite /is_svd (minn_idPr hM); split=> // i j hi hj.
  by have := h5 (Ordinal hi) (Ordinal hj); rewrite mxE.
Qed.

Lemma SV_DecomposeP fuel esz M N A Sv Vt w det : (N <= M)%N ->
  dc_contract M N N dclim esz (dc M N) -> dc_contract N N N dclim esz (dc N N) ->
  match SV_Decompose 0 under dclim nb dc stdsort fuel esz M N A Sv Vt w det with
  | Ok (Some (U, Sv, Vt)) => is_svd M N A U Sv Vt
  | Ok None => True
  | UB => (esz < N)%N
  | Throw _ => False
  end.
Proof.
  move=> hM h1 h2; rewrite /SV_Decompose; case: (posnP N) => [n0|n0].
    by subst N; rewrite /is_svd (minn_idPr hM); split.
  case: ifP => htall; last exact: SV_directP.
  have := C31_decompose under A (w_Z2 w) (w_Z3 w) (w_b w) det nb0 nb0 hM.
  case: (QR_Decompose _ _ _ _ _ _ _ _) => [[[Q beta] det']|//|//] [_]; cbn [bindO].
  case: (GetQFromQR _ _ _ _ _ _) => [Q'|//|//] [o1 [f _]]; cbn [bindO].
  set R := fun i j : nat => _.
  have := @SV_directP fuel esz N N R Sv Vt w det' n0 (leqnn N) h2.
  case: (SV_direct _ _ _ _ _ _ _ _ _ _ _ _ _ _ _) => [[[[U S'] V]|]|//|//] //; cbn [bindO].
  rewrite /is_svd minnn (minn_idPr hM) => -[k1 k2 k3 k4 k5]; split=> //.
  - apply/orthP; set X := mx _ _ _.
    have -> : X = mx M N Q' *m mx N N U.
      apply/matrixP => i j; rewrite !mxE !ltn_ord /= big_mkord; by apply: eq_bigr => k _; rewrite !mxE.
    move/orthP: o1 => o1; move/orthP: k1 => k1.
    by rewrite ctrM mulmxA -[ctr _ *m _ *m _]mulmxA o1 mulmx1 k1.
  - move=> i j hi hj; rewrite -f // /usv.
    transitivity (\sum_(k < N) Q' i k * usv N U S' V k j).
      by apply: eq_bigr => k _; congr (_ * _); rewrite -k5 // /R ltn_ord hj /upper /=; case: (ltngtP k j).
    rewrite /usv; under eq_bigr do rewrite big_distrr /=.
    rewrite exchange_big /=; apply: eq_bigr => l _; rewrite hi ltn_ord /= big_mkord !big_distrl /=.
    by apply: eq_bigr => k _; rewrite !mulrA.
Qed.
End Proofs.

(** SV_Decompose of an M x N matrix, N <= M, of any contents and rank, for any contents of the
    new arrays, any std::sort, any block size, and at most DC_LIMIT columns (so that the
    divide and conquer algorithm [dc] is not used), with exact arithmetic: if the iteration
    ends, then A = U S Vt with orthonormal columns of U, unitary Vt, and S >= 0 in descending
    order.  Memory outside E (of esz elements) is touched only if E has fewer than N elements. *)
Theorem C52_sv_decompose (C : numClosedFieldType) (under : C -> bool) (dclim nb : nat)
    (dc : nat -> nat -> nat -> nat -> bst C -> run (bst C)) stdsort (fuel esz M N : nat)
    (A Vt : fm C) (S : fv C) (w : work C) (det : C) :
  (forall x, under x = (x == 0)) -> (0 < nb)%N -> std_sort_contract stdsort -> (N <= M)%N -> (N <= dclim)%N ->
  match SV_Decompose 0 under dclim nb dc stdsort fuel esz M N A S Vt w det with
  | Ok (Some (U', S', Vt')) => is_svd M N A U' S' Vt'
  | Ok None => True
  | UB => (esz < N)%N
  | Throw _ => False
  end.
Proof.
  move=> h1 h2 h3 hM hd.
  have vac m : dc_contract m N N dclim esz (dc m N) by move=> A0 o n st h _ [_ h' _ _]; exfalso; lia.
  exact: SV_DecomposeP.
Qed.
Print Assumptions C52_sv_decompose.

(** Above DC_LIMIT columns, if the divide and conquer algorithm meets its contract (keep
    U B Vt and the orthonormality, clear E in its block, change nothing else).  Missing: that
    TMV_SVDecompose_DC.cpp does. *)
Theorem C52_sv_decompose_large_partial (C : numClosedFieldType) (under : C -> bool) (dclim nb : nat)
    (dc : nat -> nat -> nat -> nat -> bst C -> run (bst C)) stdsort (fuel esz M N : nat)
    (A Vt : fm C) (S : fv C) (w : work C) (det : C) :
  (forall x, under x = (x == 0)) -> (0 < nb)%N -> std_sort_contract stdsort -> (N <= M)%N ->
  (forall m, dc_contract m N N dclim esz (dc m N)) ->
  match SV_Decompose 0 under dclim nb dc stdsort fuel esz M N A S Vt w det with
  | Ok (Some (U', S', Vt')) => is_svd M N A U' S' Vt'
  | Ok None => True
  | UB => (esz < N)%N
  | Throw _ => False
  end.
Proof. by move=> h1 h2 h3 hM hd; apply: SV_DecomposeP. Qed.
Print Assumptions C52_sv_decompose_large_partial.

(** Small upper triangular matrices are their own bidiagonal form. *)
Section Tri2.
Variable C : numClosedFieldType.
Variable under : C -> bool.
Lemma hreflect_id M k (A : fm C) det : (forall i, (k < i < M)%N -> A i k = 0) -> A k k \is Num.real ->
  exists A', hreflect under M k A det = (A', 0, det) /\ A' =2 A.
Proof.
  move=> hz hr; rewrite /hreflect.
  have e0 : foldl (fun s i => if s < tABS2 (A i k) then tABS2 (A i k) else s) 0 (iota k.+1 (M - k.+1)) = 0 :> C.
    have : forall i, i \in iota k.+1 (M - k.+1) -> A i k = 0.
      by move=> i; rewrite mem_iota => hi; apply: hz; lia.
    elim: (iota _ _) => [//|i l IH] h /=; rewrite (h i) ?mem_head // /tABS2 !raddf0 normr0 addr0 ltxx.
    by apply: IH => j hj; apply: h; rewrite in_cons hj orbT.
  have esc : hscale M k A = `|A k k|.
    by rewrite /hscale e0 tABSE normr_gt0; case: eqP => //= ->; rewrite normr0.
  rewrite esc; case: eqP => [e|ne].
    eexists; split; first by [].
    move=> i j; rewrite /setbelow; case: ifP => // /andP [/eqP -> hi]; case: eqP => [->|hn].
      by apply/esym/eqP; rewrite -normr_eq0 e.
    by rewrite hz //; lia.
  have -> : \sum_(k.+1 <= i < M) tNORM (A i k * tINV `|A k k|) = 0.
    rewrite big_nat big1 // => i hi; rewrite hz; last by lia.
    by rewrite mul0r /tNORM !raddf0 expr0n addr0.
  have -> : 'Im (A k k) = 0 by apply/Creal_ImP.
  rewrite eqxx /=; eexists; split; first by [].
  move=> i j; rewrite /setbelow; case: ifP => // /andP [/eqP -> hi]; case: eqP => [->//|hn].
  by rewrite hz //; lia.
Qed.
(** [[a,b],[0,d]]. *)
Definition tri2 (a b d : C) : fm C := fun i j => if i == 0%N then (if j == 0%N then a else b) else if j == 0%N then 0 else d.
Lemma tri2_bidiag nb a b d ub vb D E det Vt Z0 Z1 : a \is Num.real -> b \is Num.real -> d \is Num.real -> (0 < nb)%N ->
  exists U D' E' Vt' det', BidiagUnpack under nb 2 2 (tri2 a b d) ub vb D E det Vt Z0 Z1 = Ok (U, D', E', Vt', det') /\
    [/\ D' 0%N = a, D' 1%N = d & E' 0%N = b].
Proof.
  move=> ra rb rd h; have [U [D' [E' [V [d' [e _]]]]]] := C52_bidiagonalize under (tri2 a b d) Vt Z0 Z1 ub vb D E det h (isT : (0 < 2)%N) (isT : (2 <= 2)%N).
  exists U, D', E', V, d'; split=> //; move: e; rewrite /BidiagUnpack.
  have [ub' [vb' [A' [D1 [E1 [d1 [-> [h1 h2 h3]]]]]]]] : exists ub' vb' A' D1 E1 d1,
    NonBlockBidiagonalize under 2 2 (tri2 a b d) ub vb D E det = (A', ub', vb', D1, E1, d1) /\ [/\ D1 0%N = a, D1 1%N = d & E1 0%N = b].
    rewrite /NonBlockBidiagonalize /= /hreflectM.
    have [|//|A1 [-> e1]] := @hreflect_id 2 0 (tri2 a b d) det; first by case=> [|[|]].
    rewrite eqxx /=.
    have [||A2 [-> e2]] := @hreflect_id 1 0 (tsub A1) det; [by case=> [|] // i; lia|by rewrite /tsub e1|].
    rewrite eqxx /=.
    have eA i j : untsub A2 A1 i j = tri2 a b d i j by case: j => [|j]; rewrite /untsub ?e2 /tsub e1.
    have [||A3 [-> e3]] := @hreflect_id 2 1 (untsub A2 A1) det; [by case=> [|[|]] // i; lia|by rewrite eA|].
    do 6 eexists; split; first by [].
    by rewrite /= !e3 !eA /tri2 /=; split; apply/Creal_ReP.
  case: (unpackV _ _ _ _ _ _) => //= V1; case: (GetQFromQR _ _ _ _ _ _) => //= U1 [_ <- <- _ _].
  by split.
Qed.
End Tri2.


Section Runs.
Variable C : numClosedFieldType.
Variable under : C -> bool.
Hypothesis underE : forall x, under x = (x == 0).
Variables (dclim : nat) (dc : nat -> nat -> bst C -> run (bst C)).
Variable srt : nat -> fv C -> nat -> nat.
Lemma DoDec_oob f st : sD st 0%N = 0 -> sD st 1%N != 0 -> sE st 0%N != 0 ->
  DoDec 0 under dclim dc 2 2 1 f.+2 0 2 st = Outside.
Proof.
  move=> d0 d1 e0; rewrite DoDecS.
  have [[eU eV eD eE] _] := @ChopP C under underE 0 2 st isT.
  rewrite DoLoopS; cbv zeta; cbn [subn subn_rec Nat.sub].
  have -> : srch _ 0 = 0%N by [].
  rewrite eE (negbTE e0) !eD d0 eqxx (negbTE d1) /ZeroFirstRow eE (negbTE e0).
  by [].
Qed.
Lemma DoDec_deflate f st : sD st 1%N = 0 -> sE st 0%N != 0 ->
  exists st', DoDec 0 under dclim dc 2 2 1 f.+3 0 2 st = Done st'.
Proof.
  move=> d1 e0; rewrite DoDecS.
  have [[eU eV eD eE] _] := @ChopP C under underE 0 2 st isT.
  rewrite DoLoopS; cbv zeta; cbn [subn subn_rec Nat.sub].
  rewrite eE (negbTE e0) !eD d1 eqxx.
  by eexists; rewrite DoLoopS.
Qed.
Lemma From_split fuel st : sE st 0%N != 0 -> exists2 sc : C, 0 < sc &
  FromBidiagonal 0 under dclim dc 2 2 1 srt fuel 2 st =
   bindR (DoDec 0 under dclim dc 2 2 1 fuel 0 2 (St (sU st) (fun i => if (i < 2)%N then sD st i / sc else sD st i)
                 (fun i => if (i < 2 - 1)%N then sE st i / sc else sE st i) (sV st))) (fun st =>
    let st := MakePos 2 0 2 st in
    let p := srt 2%N (sD st) in
    Done (St (trm (permrows 2 p 0 2 (trm (sU st))))
             (fun i => if (i < 2)%N then sD st (psig p 0 2 i) * sc else sD st i)
             (sE st) (permrows 2 p 0 2 (sV st)))).
Proof.
  move=> e0; rewrite /FromBidiagonal underE.
  have [mE1 mE2] := maxelP (2 - 1) (sE st); have [mD1 _] := maxelP 2 (sD st).
  have [k1 [_ k3]] := max2P (ger0_real mE1) (ger0_real mD1).
  move: (max2 _ _) k1 k3 => sc k1 k3.
  have sc0 : 0 < sc by apply: lt_le_trans k1; apply: lt_le_trans (mE2 0%N isT); rewrite normr_gt0.
  by exists sc => //; rewrite gt_eqF.
Qed.
End Runs.

(** Refuted: with the E that SV_Decompose allocates (N-1 elements), the decomposition of
    [[0,1],[0,1]] reads and writes the element after the end of E, whatever the memory
    held and however long it is given. *)
Theorem C52_workspace_refuted (C : numClosedFieldType) (under : C -> bool) (dclim nb : nat)
    (dc : nat -> nat -> nat -> nat -> bst C -> run (bst C)) stdsort (fuel : nat)
    (Vt : fm C) (S : fv C) (w : work C) (det : C) :
  (forall x, under x = (x == 0)) -> (0 < nb)%N -> (2 <= fuel)%N ->
  SV_Decompose 0 under dclim nb dc stdsort fuel (2 - 1) 2 2 (tri2 0 1 1) S Vt w det = UB.
Proof.
  move=> hu hnb; case: fuel => [|[|f]] // _.
  have r0 : 0 \is @Num.real C := real0 _; have r1 : 1 \is @Num.real C := real1 _.
  rewrite /SV_Decompose; cbn [eqn divn]; rewrite /SV_direct.
  have [U [D [E [V [d [-> [d0 d1 e0]]]]]]] := tri2_bidiag under (w_ub w) (w_vb w) S (w_E w) det Vt (w_Z0 w) (w_Z1 w) r0 r1 r1 hnb.
  cbn [bindO]; set st := St U D E V.
  have ne : sE st 0%N != 0 by rewrite /st; cbn [sE]; rewrite e0 oner_eq0.
  have [sc sc0 ->] := From_split hu dclim (dc 2%N 2%N) (sortp stdsort) f.+2 ne.
  rewrite DoDec_oob //=; first by rewrite d0 mul0r.
    by rewrite d1 mul1r invr_eq0 gt_eqF.
  by rewrite e0 mul1r invr_eq0 gt_eqF.
Qed.
Print Assumptions C52_workspace_refuted.

(** The other theorems are not vacuous: [[3,4],[0,0]] is decomposed, after a few steps and with
    an E of one element. *)
Example C52_returns (C : numClosedFieldType) (under : C -> bool) (nb : nat)
    (dc : nat -> nat -> nat -> nat -> bst C -> run (bst C)) stdsort (Vt : fm C) (S : fv C) (w : work C) (det : C) :
  (forall x, under x = (x == 0)) -> (0 < nb)%N -> std_sort_contract stdsort ->
  exists U' S' Vt', SV_Decompose 0 under 32 nb dc stdsort 3 1 2 2 (tri2 3%:R 4%:R 0) S Vt w det = Ok (Some (U', S', Vt')) /\
    is_svd 2 2 (tri2 3%:R 4%:R 0) U' S' Vt'.
Proof.
  move=> hu hnb hs; have r0 : 0 \is @Num.real C := real0 _.
  have n4 : 4%:R != 0 :> C by rewrite pnatr_eq0.
  have := @C52_sv_decompose C under 32 nb dc stdsort 3 1 2 2 (tri2 3%:R 4%:R 0) Vt S w det hu hnb hs isT isT.
  rewrite /SV_Decompose; cbn [eqn divn]; rewrite /SV_direct.
  have [U [D [E [V [d [-> [d0 d1 e0]]]]]]] := tri2_bidiag under (w_ub w) (w_vb w) S (w_E w) det Vt (w_Z0 w) (w_Z1 w)
    (realn C 3) (realn C 4) r0 hnb.
  cbn [bindO]; set st := St U D E V.
  have ne : sE st 0%N != 0 by rewrite /st; cbn [sE]; rewrite e0.
  have [sc sc0 ->] := From_split hu 32%N (dc 2%N 2%N) (sortp stdsort) 3%N ne.
  set st1 := St _ _ _ _.
  have z1 : sD st1 1%N = 0 by rewrite /= d1 mul0r.
  have n1 : sE st1 0%N != 0 by rewrite /= e0 mulf_neq0 // invr_eq0 gt_eqF.
  have [st2 ->] := DoDec_deflate hu 32%N (dc 2%N 2%N) 0%N z1 n1.
  cbn [bindR toR]; cbv zeta => h; do 3 eexists; split; first by []; exact: h.
Qed.

(** The number of steps allowed does not matter: once there is a result, a longer run gives
    the same. *)
Theorem C52_result_unique (C : numClosedFieldType) (under : C -> bool) (dclim nb : nat)
    (dc : nat -> nat -> nat -> nat -> bst C -> run (bst C)) stdsort (fuel fuel' esz M N : nat)
    (A Vt : fm C) (S : fv C) (w : work C) (det : C) r :
  (fuel <= fuel')%N ->
  SV_Decompose 0 under dclim nb dc stdsort fuel esz M N A S Vt w det = Ok (Some r) ->
  SV_Decompose 0 under dclim nb dc stdsort fuel' esz M N A S Vt w det = Ok (Some r).
Proof.
  have H m f A' d0 r0 : SV_direct 0 under dclim nb dc stdsort f esz m N A' S Vt w d0 = Ok (Some r0) ->
      SV_direct 0 under dclim nb dc stdsort f.+1 esz m N A' S Vt w d0 = Ok (Some r0).
    rewrite /SV_direct; case: (BidiagUnpack _ _ _ _ _ _ _ _ _ _ _ _ _) => // -[[[[U D] E] V] d']; cbn [bindO].
    rewrite /FromBidiagonal; case: ifP => // _.
    have [_ [mD _]] := loops_mono m N under dclim esz (dc m N) f.
    move: (mD 0%N N); set st := St _ _ _ _ => /(_ st); move: (DoDec _ _ _ _ _ _ _ f _ _ _) => [a| |] // h.
    by rewrite h.
  move=> hf; have -> : fuel' = (fuel' - fuel + fuel)%N by lia.
  elim: (fuel' - fuel)%N => [//|k IH] /IH; rewrite addSn; move: (k + fuel)%N => f.
  rewrite /SV_Decompose; case: ifP => // _; case: ifP => _; last exact: H.
  case: (QR_Decompose _ _ _ _ _ _ _ _) => // -[[Q b] d0]; cbn [bindO]; case: (GetQFromQR _ _ _ _ _ _) => // Q'; cbn [bindO].
  set R := fun i j : nat => _; move: (H N f R d0).
  case: (SV_direct _ _ _ _ _ _ f _ _ _ _ _ _ _ _) => // -[r0|] //.
  by move=> /(_ r0 erefl) ->.
Qed.
Print Assumptions C52_result_unique.

(** Together with C51: solving with the factors that SV_Decompose returned for A (or its
    transpose, if that is taller) gives the minimum norm least squares solution. *)
Theorem C52_svd_solve (C : numClosedFieldType) (under : C -> bool) (dclim nb : nat)
    (dc : nat -> nat -> nat -> nat -> bst C -> run (bst C)) stdsort (fuel esz Mr Nr K : nat)
    (A Vt m x0 : fm C) (S : fv C) (w : work C) (det : C) U' S' Vt' :
  (forall x, under x = (x == 0)) -> (0 < nb)%N -> std_sort_contract stdsort -> (minn Mr Nr <= dclim)%N ->
  SV_Decompose 0 under dclim nb dc stdsort fuel esz (maxn Mr Nr) (minn Mr Nr) (if (Mr < Nr)%N then trm A else A)
    S Vt w det = Ok (Some (U', S', Vt')) ->
  match SVDiv_LDiv Mr Nr K U' S' Vt' (SVDiv_thresh (minn Mr Nr) S' 0) m x0 with
  | Ok X => forall c, (c < K)%N -> mnls Mr Nr A (fun k => X k c) (fun i => m i c)
  | _ => False
  end.
Proof.
  move=> h1 h2 h3 h4 e.
  have hmm : (minn Mr Nr <= maxn Mr Nr)%N by lia.
  have := C52_sv_decompose dc fuel esz (if (Mr < Nr)%N then trm A else A) Vt S w det h1 h2 h3 hmm h4; rewrite e => sv.
  have := C51_left_division K m x0 sv (lexx 0); cbv zeta; case: (SVDiv_LDiv _ _ _ _ _ _ _ _ _) => // X hX c hc.
  have [_ hB] := C51_truncation sv (lexx 0).
  have [k1 k2] := hX c hc; have eA := hB erefl.
  have er y b : resid2 Mr Nr A y b = resid2 Mr Nr (usv (SVDiv_thresh (minn Mr Nr) S' 0) (SVDiv_getU Mr Nr U' Vt') S' (SVDiv_getVt Mr Nr U' Vt')) y b.
    by apply: eq_bigr => i _; congr (`|_ - _| ^+ 2); apply: eq_bigr => k _; rewrite eA.
  by split=> y; rewrite !er; auto.
Qed.
Print Assumptions C52_svd_solve.
