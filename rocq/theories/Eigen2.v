(** The QR iteration of TridiagQR.v ends for one or two rows: the shift is an eigenvalue, and
    one sweep makes the matrix diagonal. *)
From Coq Require Import Ring Field.
From Verif Require Import Base FMat RowPerm LUDiv RingTac Cplx Givens Claims_Givens BidiagQR BidiagQRProofs Bidiag22 BidiagFinal
  Tridiag TridiagQR TridiagQRProofs TridiagFinal.
From mathcomp Require Import all_ssreflect all_algebra zify.
Set Implicit Arguments. Unset Strict Implicit. Unset Printing Implicit Defensive.
Import GRing.Theory Num.Theory Order.Theory.
Local Open Scope ring_scope.

Section Proofs.
Variable C : numClosedFieldType.
Add Field Cf : (mc_ft C).
Ltac mfield := mcnorm C; field.
Ltac mring := mcnorm C; ring.
Implicit Types (U : fm C) (D E : fv C) (st : tst C).

Lemma trail_exact D E p : D p \is Num.real -> D p.+1 \is Num.real -> E p \is Num.real ->
  let mu := HTrailingEV p 2 D E in (D p - mu) * (D p.+1 - mu) = E p * E p.
Proof.
  rewrite /HTrailingEV; have -> : (p + 2 - 2)%N = p by lia.
  have -> : (p + 2 - 1)%N = p.+1 by lia.
  move: (D p) (D p.+1) (E p) => a c e ra rc re.
  have ee : e * e = `|e| * `|e| by rewrite -!expr2 real_normK.
  have rn : `|e| \is Num.real by exact: normr_real.
  rewrite ee; move: `|e| rn => b rb; cbv zeta.
  have n2 : (2%:R : C) != 0 by rewrite pnatr_eq0.
  case: eqP => [h|/eqP h].
    have -> : a = c.
      apply/eqP; rewrite eq_sym -subr_eq0; apply/eqP.
      by rewrite -[c - a](mulfVK n2) h mul0r.
    by mring.
  set d := (c - a) / 2%:R in h *.
  have rd : d \is Num.real by rewrite /d rpred_div ?rpredB // realn.
  have -> : a = c - 2%:R * d by rewrite /d mulrC mulfVK // opprB addrCA subrr addr0.
  set t := b / d; have rt : t \is Num.real by rewrite /t rpred_div.
  have -> : `|t| ^+ 2 = t * t by rewrite real_normK // expr2.
  have p0 : 0 <= t * t by rewrite -expr2 -real_normK // exprn_ge0.
  have : sqrtC (1 + t * t) * sqrtC (1 + t * t) = 1 + t * t by rewrite -expr2 sqrtCK.
  have : 0 <= sqrtC (1 + t * t) by rewrite sqrtC_ge0 addr_ge0.
  move: (sqrtC _) => s s0 es.
  have ns : 1 + s != 0 by rewrite gt_eqF // (lt_le_trans ltr01) // ler_addl.
  have -> : b = t * d by rewrite /t mulfVK.
  have -> : t * d * t / (1 + s) = d * (s - 1).
    have -> : t * d * t = d * (t * t) by mring.
    have -> : t * t = (s - 1) * (1 + s) by transitivity (s * s - 1); [rewrite es; mring|mring].
    by rewrite mulrA mulfK.
  transitivity (d * d * (s * s - 1)); first by mring.
  by rewrite es; mring.
Qed.

Lemma reduce2 M st p : tD st p \is Num.real -> tD st p.+1 \is Num.real -> tE st p \is Num.real -> tE st p != 0 ->
  tE (HReduce 0 M p 2 st) p = 0.
Proof.
  case: st => U D E; cbn [tU tD tE] => ra rc re ne; rewrite /HReduce /=.
  have := trail_exact ra rc re; cbv zeta.
  have rm : HTrailingEV p 2 D E \is Num.real.
    have h : realsT (p + 2) (fun i => if i == p then D p else D p.+1) (fun=> E p).
      by split=> i hi //; case: ifP.
    have := @HTrailing_real C (p + 2) p 2 _ _ isT (leqnn _) h.
    rewrite /HTrailingEV; have -> : (p + 2 - 2)%N = p by lia.
    have -> : (p + 2 - 1)%N = p.+1 by lia.
    rewrite eqxx; by have -> : (p.+1 == p) = false by lia.
  move: (HTrailingEV _ _ _ _) rm => mu rm key.
  have := grot_grt (rpredB ra rm) re; cbv zeta; case: (grot _ _ _) => gx gy c s /=.
  rewrite addn0 /updv eqxx => -[[_ _ h1 _] _ _ _ e2].
  have nz : D p - mu != 0.
    by apply/eqP => z; move: key; rewrite z mul0r => /esym/eqP; rewrite mulf_eq0 orbb (negbTE ne).
  apply: (mulfI nz); rewrite mulr0.
  move: (D p) (D p.+1) (E p) key e2 h1 nz {ra rc re ne} => a b e key e2 h1 nz.
  transitivity ((a - mu) * e * (1 - (gx * gx + gy * gy)) + gy * gx * ((a - mu) * (b - mu) - e * e) +
    (gx * e - gy * (a - mu)) * (gx * (a - mu) + gy * e)); first by mring.
  by rewrite key e2 h1 !subrr !mulr0 mul0r !addr0.
Qed.

Variable under : C -> bool.
Hypothesis underE : forall x, under x = (x == 0).
Variables (M dclim : nat) (dc : nat -> nat -> tst C -> run (tst C)).
Lemma HLoopS f q st : HLoop 0 under dclim dc M f.+1 q.+1 st = if tE st q == 0 then HLoop 0 under dclim dc M f q st else
  bindR (HNZ 0 under dclim dc M f (srch (fun p => tE st (p - 1)%N != 0) q) (q.+1 - srch (fun p => tE st (p - 1)%N != 0) q + 1) st)
    (fun st' => HLoop 0 under dclim dc M f (srch (fun p => tE st (p - 1)%N != 0) q) st').
Proof. by []. Qed.
Lemma HLoop0 f st : HLoop 0 under dclim dc M f.+1 0 st = Done st. Proof. by []. Qed.
Lemma HQRS f o q st : HQR 0 under M f.+1 o q.+1 st = if tE st (o + q)%N == 0 then HQR 0 under M f o q st else
  let p := srch (fun p => tE st (o + p - 1)%N != 0) q in
  HQR 0 under M f o q.+1 (HChop 0 under (o + p) (q.+1 - p + 1) (HReduce 0 M (o + p) (q.+1 - p + 1) st)).
Proof. by []. Qed.
Lemma HQR0 f o st : HQR 0 under M f.+1 o 0 st = Done st. Proof. by []. Qed.
Lemma HDo2 fuel N st : (0 < N <= 2)%N -> (N <= dclim)%N -> (4 <= fuel)%N -> realsT N (tD st) (tE st) ->
  exists st', HDo 0 under dclim dc M fuel N st = Done st'.
Proof using underE.
  case: fuel => [|[|[|[|fuel]]]] // hN hd _ [rD rE]; rewrite /HDo.
  have [_ cD cE] := HChopE underE 0 N st; move: (HChop _ _ _ _ _) cD cE => st1 cD cE.
  case: N hN hd rD rE => [|[|[|N]]] // _ hd rD rE; first by exists st1.
  rewrite -[(2 - 1)%N]/1%N HLoopS cE; case: eqP => [_|/eqP ne]; first by exists st1.
  rewrite -[srch _ _]/0%N -[(1 - 0 + 1)%N]/2%N /HNZ hd -[(2 - 1)%N]/1%N HQRS addn0 cE (negbTE ne).
  cbv zeta; rewrite -[srch _ _]/0%N !addn0 -[(1 - 0 + 1)%N]/2%N.
  have hr : tE (HReduce 0 M 0 2 st1) 0%N = 0 by rewrite reduce2 ?cD ?cE ?rD ?rE.
  have [_ _ cE2] := HChopE underE 0 2 (HReduce 0 M 0 2 st1).
  move: (HReduce _ _ _ _ _) hr cE2 => st3 hr cE2; move: (HChop _ _ _ _ _) cE2 => st2 cE2.
  rewrite HQRS addn0 cE2 hr eqxx HQR0; cbn [bindR]; rewrite HLoop0; by exists st2.
Qed.

Lemma EigenFromTridiagonal2 stdsort fuel N st : (0 < N <= 2)%N -> (N <= dclim)%N -> (4 <= fuel)%N -> realsT N (tD st) (tE st) ->
  exists st', EigenFromTridiagonal 0 under dclim dc M stdsort fuel N st = Done st'.
Proof using underE.
  move=> hN hd hf [rD rE]; rewrite /EigenFromTridiagonal; have -> : (N == 0%N) = false by lia.
  have [mE1 mE2] := maxelP (N - 1) (tE st); have [mD1 mD2] := maxelP N (tD st).
  have [k1 [k2 k3]] := max2P (ger0_real mD1) (ger0_real mE1).
  move: (max2 _ _) k1 k2 k3 => sc k1 k2 k3; have sc0 : 0 <= sc by exact: le_trans k1.
  case: ifP => _; first by eexists.
  set st1 := TS _ _ _; have r1 : realsT N (tD st1) (tE st1).
    split=> i hi; rewrite /st1; cbn [tD tE].
      by rewrite hi rpred_div ?rD // ger0_real.
    by case: ifP => _; rewrite ?rpred_div ?rE // ger0_real.
  have [st2 ->] := HDo2 hN hd hf r1; cbn [bindR].
  by case: (sortUD _ _ _ _ _ _ _) => U' D'; eexists.
Qed.
End Proofs.
