(** The loops of the bidiagonal QR iteration. *)
From Coq Require Import Ring Field.
From Verif Require Import Base FMat RowPerm LUDiv RingTac Cplx Givens Claims_Givens QRProofs BidiagProofs BidiagQR BidiagQRProofs BidiagSweep Bidiag22.
From mathcomp Require Import all_ssreflect all_algebra zify.
Set Implicit Arguments. Unset Strict Implicit. Unset Printing Implicit Defensive.
Import GRing.Theory Num.Theory Order.Theory.
Local Open Scope ring_scope.

Section Proofs.
Variable C : numClosedFieldType.
Add Field Cf : (mc_ft C).
Ltac mfield := mcnorm C; field.
Ltac mring := mcnorm C; ring.
Ltac nz := repeat split; exact/eqP.
Implicit Types (c s x y : C) (X U B V : fm C) (D E : fv C) (st : bst C).
Variables M N P : nat.
Variable A0 : 'M[C]_(M, P).
Local Notation inv := (@inv C M N P A0).
Local Notation reals := (@reals C N).
Local Notation Inv := (@Inv C M N P A0).
Local Notation iso := (@iso C N).
Local Notation frm := (@frm C N).
Local Notation swi := (@swi C M N P A0).

Lemma r22_mat U D E V p c1 s1 c2 s2 : iso p 2 E -> grt c1 s1 -> grt c2 s2 ->
  s1 * (s2 * E p - c2 * D p) = c1 * (s2 * D p.+1) -> inv U (bidi D E) V ->
  inv (rotcols c1 s1 M p p.+1 U)
    (bidi (updv (updv D p (c1 * c2 * D p - c1 * s2 * E p - s1 * s2 * D p.+1)) p.+1 (- s1 * s2 * D p - s1 * c2 * E p + c1 * c2 * D p.+1))
      (updv E p (c1 * s2 * D p + c1 * c2 * E p + s1 * c2 * D p.+1)))
    (rotrows c2 (- s2) P p p.+1 V).
Proof.
  case=> _ hN Ep Eq g1 g2 ll h; have hp1 : (p.+1 < N)%N by lia.
  have hp : (p < N)%N by lia.
  have hpp : p != p.+1 by lia.
  have g2' : grt c2 (- s2).
    case: g2 => a b e f; split; rewrite ?rpredN // ?mulrNN // => /eqP; rewrite oppr_eq0 => /eqP; exact: f.
  have eq' : (p.+2 < N)%N -> E p.+1 = 0 by move=> h'; have := Eq; rewrite addn2 /=; apply; lia.
  have ep' i' : i'.+1 = p -> E i' = 0 by move=> e; subst; apply: Ep.
  have ll' : s1 * (s2 * E p - c2 * D p) - c1 * (s2 * D p.+1) = 0 by rewrite ll subrr.
  apply: inv_ext (inv_right hp hp1 hpp g2' (inv_left hp hp1 hpp g1 h)) _ => i j hi hj.
  rewrite /gcol /grow /bidi /updv; deq.
  all: repeat match goal with e : S _ = S _ |- _ => case: e => e end; subst.
  all: try by exfalso; lia.
  all: try (rewrite (ep' _ erefl)).
  all: try (have z : E p.+1 = 0 by apply: eq'; lia); rewrite ?z.
  all: try by [].
  all: try mring.
  all: try (have e : E i = 0 by (apply: ep'; lia)); rewrite ?e; try mring.
  all: try (etransitivity; [|exact: ll']; mring).
Qed.

Lemma Reduce22P p st : Inv st -> iso p 2 (sE st) -> sD st p != 0 -> sD st p.+1 != 0 -> sE st p != 0 ->
  Inv (Reduce22 M P p st) /\ frm p 2 st (Reduce22 M P p st).
Proof.
  move=> [hi [r1 r2]] hs n0 n1 ne; have [_ hN _ _] := hs.
  have hp : (p < N)%N by lia.
  have hp1 : (p.+1 < N)%N by lia.
  have rd0 := r1 _ hp; have rd1 := r1 _ hp1; have re := r2 _ hp1.
  have := rot22P rd0 rd1 re n0 n1 ne; rewrite /Reduce22.
  case: (rot22 _ _ _) => [[[[c1 s1] c2] s2] ex] [g1 g2 ll hex].
  have [rc1 rs1 q1 _] := g1; have [rc2 rs2 q2 _] := g2.
  set d0 := sD st p in rd0 n0 ll hex *; set d1 := sD st p.+1 in rd1 n1 ll hex *; set e := sE st p in re ne ll hex *.
  set X := c1 * c2 * d0 - c1 * s2 * e - s1 * s2 * d1.
  set Y := - s1 * s2 * d0 - s1 * c2 * e + c1 * c2 * d1.
  set Z := c1 * s2 * d0 + c1 * c2 * e + s1 * c2 * d1.
  have -> : (if ex then (d0 * (c1 / c2), d1 * (c2 / c1), 0) else (X, Y, Z)) = (X, Y, Z).
    case: ex hex => // /(_ isT) [k1 k2 uz]; congr (_, _, _).
    - have -> : d0 * (c1 / c2) = (c2 * c2 + s2 * s2) * (d0 * (c1 / c2)) by rewrite q2 mul1r.
      have -> : (c2 * c2 + s2 * s2) * (d0 * (c1 / c2)) = c2 * c1 * d0 + s2 / c2 * (s2 * c1 * d0) by mfield; nz.
      have -> : s2 * c1 * d0 = - (c1 * c2 * e + s1 * (c2 * d1)).
        apply/eqP; rewrite -subr_eq0; apply/eqP; etransitivity; [|exact: uz]; mring.
      by rewrite /X; mfield; nz.
    - have -> : d1 * (c2 / c1) = (c1 * c1 + s1 * s1) * (d1 * (c2 / c1)) by rewrite q1 mul1r.
      have -> : (c1 * c1 + s1 * s1) * (d1 * (c2 / c1)) = c1 * c2 * d1 + s1 / c1 * (s1 * (c2 * d1)) by mfield; nz.
      have -> : s1 * (c2 * d1) = - (c1 * (s2 * d0 + c2 * e)).
        apply/eqP; rewrite -subr_eq0; apply/eqP; etransitivity; [|exact: uz]; mring.
      by rewrite /Y; mfield; nz.
    - rewrite -uz /Z; mring.
  have rX : X \is Num.real by rewrite /X !(rpredB, rpredM).
  have rY : Y \is Num.real by rewrite /Y; apply: rpredD; [apply: rpredB|]; rewrite ?rpredM ?rpredN.
  have rZ : Z \is Num.real by rewrite /Z !(rpredD, rpredM).
  split; [split|split]; cbn [sU sD sE sV].
  - have k := @r22_mat (sU st) (sD st) (sE st) (sV st) p c1 s1 c2 s2 hs g1 g2 ll hi.
    exact: k.
  - by split=> i h; rewrite /updv; repeat case: ifP => _ //; auto.
  - move=> i h h'; rewrite /updv.
    have -> : (i == p.+1) = false by clear -h'; lia.
    by have -> : (i == p) = false by clear -h'; lia.
  - move=> i h h'; rewrite /updv.
    by have -> : (i == p) = false by clear -h'; lia.
Qed.

Lemma TrailingEV_real p n D E : reals D E -> (2 <= n)%N -> (p + n <= N)%N -> TrailingEV p n D E \is Num.real.
Proof.
  move=> [r1 r2] n2 hn; rewrite /TrailingEV.
  have na (a : C) : `|a| ^+ 2 \is Num.real by rewrite rpredX ?normr_real.
  have r2n : 2%:R \is @Num.real C by rewrite realn.
  have ra : `|D (p + n - 2)%N| ^+ 2 + (if (2 < n)%N then `|E (p + n - 3)%N| ^+ 2 else 0) \is Num.real.
    by apply: rpredD => //; case: ifP => // _; exact: (real0 _).
  move: (_ + (if _ then _ else _)) ra => a ra.
  have rc : `|D (p + n - 1)%N| ^+ 2 + `|E (p + n - 2)%N| ^+ 2 \is Num.real by exact: rpredD.
  move: (_ + `|_| ^+ 2) rc => c' rc.
  move: (`|D _ * E _|) (normr_real (D (p + n - 2)%N * E (p + n - 2)%N)) => b rb.
  case: ifP => _; first exact: rpredD.
  have rbd : b / ((c' - a) / 2%:R) \is Num.real by rewrite rpred_div // rpred_div // rpredB.
  move: (b / _) rbd => t rt.
  have rsq : sqrtC (1 + `|t| ^+ 2) \is Num.real by rewrite ger0_real // sqrtC_ge0 addr_ge0 ?ler01 // exprn_ge0.
  by apply: rpredD => //; rewrite rpred_div ?rpredM // rpredD ?real1.
Qed.

Lemma sweep_foldP D0 E0 p n k sg : (k + 1 < n)%N -> (p + n <= N)%N -> ((0 < p)%N -> E0 p.-1 = 0) ->
  ((p + n < N)%N -> E0 (p + n).-1 = 0) -> swi D0 E0 p n 1 sg ->
  swi D0 E0 p n k.+1 (foldl (fun sg i => sweep_step 0 M P p n i sg) sg (iota 1 k)).
Proof.
  elim: k => [//|k IH] hk hn Ep Eq w.
  have -> : iota 1 k.+1 = iota 1 k ++ [:: (1 + k)%N] by rewrite -[k.+1]addn1 iotaD.
  rewrite foldl_cat; cbn [foldl].
  have hk' : (k + 1 < n)%N by lia.
  have := sweep_stepP (i := (1 + k)%N) _ hn Ep Eq (IH hk' hn Ep Eq w).
  have -> : (0 < 1 + k < n)%N by lia.
  have -> : (1 + k < n - 1)%N by lia.
  by move/(_ isT); rewrite add1n.
Qed.

Lemma ReduceP p n st : Inv st -> (2 <= n)%N -> iso p n (sE st) ->
  (forall i, (p <= i < p + n)%N -> sD st i != 0) -> sE st p != 0 ->
  Inv (Reduce 0 M P p n st) /\ frm p n st (Reduce 0 M P p n st).
Proof.
  move=> iv n2 hs nD nE; rewrite /Reduce.
  have -> : (n == 1%N) = false by lia.
  case: eqP => [n3|n3].
    by subst n; apply: Reduce22P => //; apply: nD; lia.
  have [n0 hN Ep Eq] := hs.
  have [hi hr] := iv; have [r1 r2] := hr.
  have rp : sD st p \is Num.real by apply: r1; lia.
  have rE : sE st p \is Num.real by apply: r2; lia.
  have rmu := TrailingEV_real hr n2 hN.
  set mu := TrailingEV _ _ _ _ in rmu *.
  have ry : `|sD st p| ^+ 2 - mu \is Num.real by rewrite rpredB // rpredX ?normr_real.
  have rx : (sD st p)^* * sE st p \is Num.real by rewrite (CrealP rp) rpredM.
  have [g _ y0 _ _] := grot_grt ry rx.
  set r := grot _ _ _ in g y0 *.
  have w1 : swi (sD st) (sE st) p n 1 (st, r_y r, r_c r, r_s r).
    by constructor; cbn [fst snd].
  have en : (n - 1)%N = (n - 2).+1 by lia.
  rewrite en.
  have -> : iota 1 (n - 2).+1 = iota 1 (n - 2) ++ [:: (1 + (n - 2))%N] by rewrite -[(n - 2).+1]addn1 iotaD.
  rewrite foldl_cat; cbn [foldl].
  have hk : (n - 2 + 1 < n)%N by lia.
  have w2 := sweep_foldP hk hN Ep Eq w1.
  have := sweep_stepP (i := (1 + (n - 2))%N) _ hN Ep Eq w2.
  have -> : (0 < 1 + (n - 2) < n)%N by lia.
  have -> : (1 + (n - 2) < n - 1)%N = false by lia.
  move/(_ isT); set sg := sweep_step _ _ _ _ _ _ _; case=> k1 k2 k3 k4.
  split; first by split.
  by split=> i h h'; [apply: k3|apply: k4].
Qed.
End Proofs.
