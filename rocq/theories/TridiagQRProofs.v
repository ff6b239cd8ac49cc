(** Proofs about TridiagQR.v: every step of the iteration keeps U T U^dagger. *)
From Coq Require Import Ring Field.
From Verif Require Import Base FMat RowPerm LUDiv RingTac Cplx Givens Claims_Givens QRProofs BidiagProofs BidiagQR BidiagQRProofs Bidiag22 TridiagQR.
From mathcomp Require Import all_ssreflect all_algebra zify.
Set Implicit Arguments. Unset Strict Implicit. Unset Printing Implicit Defensive.
Import GRing.Theory Num.Theory Order.Theory.
Local Open Scope ring_scope.

Section Proofs.
Variable C : numClosedFieldType.
Add Field Cf : (mc_ft C).
Ltac mfield := mcnorm C; field.
Ltac mring := mcnorm C; ring.
Implicit Types (c s x y : C) (X U B V : fm C) (D E : fv C) (st : tst C).

(** The hermitian tridiagonal matrix with real elements. *)
Definition tri D E : fm C := fun i j =>
  if i == j then D i else if i.+1 == j then E i else if j.+1 == i then E j else 0.
(** ... with one more pair of elements. *)
Definition trb D E x (a b : nat) : fm C := fun i j =>
  if ((i == a) && (j == b)) || ((i == b) && (j == a)) then x else tri D E i j.

Variables M N : nat.
Variable A0 : 'M[C]_(M, M).
Definition adjf U : fm C := fun i j => (U j i)^*.
Definition invT U B : Prop := inv N A0 U B (adjf U).

Lemma invT_ext U B B' : invT U B -> (forall i j, (i < N)%N -> (j < N)%N -> B i j = B' i j) -> invT U B'.
Proof. exact: inv_ext. Qed.
Lemma inv_extV U B V V' : inv N A0 U B V -> (forall i j, (i < N)%N -> (j < M)%N -> V i j = V' i j) -> inv N A0 U B V'.
Proof.
  move=> h e; have eV : mx N M V' = mx N M V by apply/matrixP => i j; rewrite !mxE e.
  by rewrite /inv eV.
Qed.

Lemma invT_rot U B c s a b : (a < N)%N -> (b < N)%N -> a != b -> grt c s ->
  invT U B -> invT (rotcols c s M a b U) (gcol c s a b (grow c s a b B)).
Proof.
  move=> ha hb hab g h; have := inv_right ha hb hab g (inv_left ha hb hab g h).
  move/inv_extV; apply=> i j hi hj; rewrite rotrowsE // /adjf rotcolsE //.
  case: g => hc hs _ _; rewrite /grow /gcol /adjf.
  case: eqP => _; first by rewrite cjD !cjM (CrealP hc) (CrealP hs).
  by case: eqP => _ //; rewrite cjD cjN !cjM (CrealP hc) (CrealP hs).
Qed.

(** The elements of the rotated 2x2 block. *)
Lemma rot00 c s (d0 d1 e : C) : c * c + s * s = 1 ->
  c * (c * d0 + s * e) + s * (c * e + s * d1) = d0 + (2%:R * c * (s * e) + s * (d1 - d0) * s).
Proof.
  move=> h; apply/eqP; rewrite -subr_eq0; apply/eqP; transitivity ((c * c + s * s - 1) * d0); first by mring.
  by rewrite h subrr mul0r.
Qed.
Lemma rot11 c s (d0 d1 e : C) : c * c + s * s = 1 ->
  c * (c * d1 - s * e) - s * (c * e - s * d0) = d1 - (2%:R * c * (s * e) + s * (d1 - d0) * s).
Proof.
  move=> h; apply/eqP; rewrite -subr_eq0; apply/eqP; transitivity ((c * c + s * s - 1) * d1); first by mring.
  by rewrite h subrr mul0r.
Qed.
Lemma rot01 c s (d0 d1 e : C) : c * c + s * s = 1 ->
  c * (c * e + s * d1) - s * (c * d0 + s * e) = e + s * (c * (d1 - d0) - 2%:R * (s * e)).
Proof.
  move=> h; apply/eqP; rewrite -subr_eq0; apply/eqP; transitivity ((c * c + s * s - 1) * e); first by mring.
  by rewrite h subrr mul0r.
Qed.
Lemma rot10 c s (d0 d1 e : C) : c * c + s * s = 1 ->
  c * (c * e - s * d0) + s * (c * d1 - s * e) = e + s * (c * (d1 - d0) - 2%:R * (s * e)).
Proof. by move=> h; rewrite -(rot01 _ _ _ h); mring. Qed.

(** The bulge moves from (k-1,k+1) to (k,k+2). *)
Lemma sweepT U D E x0 k c s : (k.+1 < N)%N -> grt c s ->
  ((0 < k)%N -> c * x0 - s * E k.-1 = 0) ->
  invT U (if k is k'.+1 then trb D E x0 k' k.+1 else tri D E) ->
  let dd := 2%:R * c * (s * E k) + s * (D k.+1 - D k) * s in
  invT (rotcols c s M k k.+1 U)
    (trb (updv (updv D k (D k + dd)) k.+1 (D k.+1 - dd))
         (updv (updv (if k is k'.+1 then updv E k' (c * E k' + s * x0) else E) k
                     (E k + s * (c * (D k.+1 - D k) - 2%:R * (s * E k)))) k.+1 (c * E k.+1))
         (s * E k.+1) k k.+2).
Proof.
  move=> hk g h0 h dd; have kk : k != k.+1 by lia.
  have hk' : (k < N)%N by lia.
  have h1 : c * c + s * s = 1 by case: g.
  apply: invT_ext (invT_rot hk' hk kk g h) _ => i j hi hj.
  case: k @dd hk h0 h kk hk' => [|k] dd hk h0 h kk hk'.
  { rewrite /gcol /grow /trb /tri /updv; deq; rewrite /=; subst.
    all: repeat match goal with e : S _ = S _ |- _ => case: e => e end; subst.
    all: first [by [] | by exfalso; lia | exact: rot00 | exact: rot11 | exact: rot01 | exact: rot10 | mring ]. }
  have {}h0 : c * x0 - s * E k = 0 by exact: h0.
  rewrite /gcol /grow /trb /tri /updv; deq; rewrite /=; subst.
  all: repeat match goal with e : S _ = S _ |- _ => case: e => e end; subst.
  all: first [by [] | by exfalso; lia | exact: rot00 | exact: rot11 | exact: rot01 | exact: rot10 | mring | (etransitivity; [|exact: h0]; mring) ].
Qed.

Lemma invT_triE U D E D' E' : invT U (tri D E) -> (forall i, (i < N)%N -> D i = D' i) ->
  (forall i, (i.+1 < N)%N -> E i = E' i) -> invT U (tri D' E').
Proof.
  move=> h hD hE; apply: invT_ext h _ => i j hi hj; rewrite /tri.
  case: eqP => [->|_]; first exact: hD.
  case: eqP => [e|_]; first by apply: hE; lia.
  by case: eqP => [e|_] //; apply: hE; lia.
Qed.
Lemma invT_trbE U D E D' E' x y a b : invT U (trb D E x a b) -> (forall i, (i < N)%N -> D i = D' i) ->
  (forall i, (i.+1 < N)%N -> E i = E' i) -> x = y -> invT U (trb D' E' y a b).
Proof.
  move=> h hD hE <-; apply: invT_ext h _ => i j hi hj; rewrite /trb; case: ifP => // _; rewrite /tri.
  case: eqP => [->|_]; first exact: hD.
  case: eqP => [e|_]; first by apply: hE; lia.
  by case: eqP => [e|_] //; apply: hE; lia.
Qed.
Lemma trb0 D E a b : (a.+1 < b)%N -> forall i j, trb D E 0 a b i j = tri D E i j.
Proof.
  move=> h i j; rewrite /trb; case: ifP => // /orP [] /andP [/eqP -> /eqP ->]; rewrite /tri.
    have -> : (a == b) = false by lia.
    have -> : (a.+1 == b) = false by lia.
    by have -> : (b.+1 == a) = false by lia.
  have -> : (b == a) = false by lia.
  have -> : (b.+1 == a) = false by lia.
  by have -> : (a.+1 == b) = false by lia.
Qed.

Definition realsT D E : Prop :=
  (forall i, (i < N)%N -> D i \is Num.real) /\ (forall i, (i.+1 < N)%N -> E i \is Num.real).
Definition InvT st : Prop := invT (tU st) (tri (tD st) (tE st)) /\ realsT (tD st) (tE st).
Definition frmT (o n : nat) st st' : Prop :=
  (forall i, ~~ (o <= i < o + n)%N -> tD st' i = tD st i) /\
  (forall i, ~~ ((o <= i) && (i.+1 < o + n))%N -> tE st' i = tE st i).
Definition isoT (o n : nat) E : Prop :=
  [/\ (0 < n)%N, (o + n <= N)%N, (0 < o)%N -> E o.-1 = 0 & (o + n < N)%N -> E (o + n).-1 = 0].

Record hsw (D0 E0 : fv C) (p n i : nat) (sg : tst C * C * C * C) : Prop := Hsw {
  w_g : grt sg.1.2 sg.2;
  w_x : sg.1.1.2 = 0;
  w_r : realsT (tD sg.1.1.1) (tE sg.1.1.1);
  w_D : forall j, ~~ (p <= j < p + n)%N -> tD sg.1.1.1 j = D0 j;
  w_E : forall j, ~~ ((p <= j) && (j.+1 < p + n))%N -> tE sg.1.1.1 j = E0 j;
  w_i : exists e0 x0, ((0 < p + i)%N -> sg.1.2 * x0 - sg.2 * e0 = 0 /\ tE sg.1.1.1 (p + i).-1 = sg.1.2 * e0 + sg.2 * x0) /\
    invT (tU sg.1.1.1) (if (p + i)%N is k'.+1 then trb (tD sg.1.1.1) (updv (tE sg.1.1.1) k' e0) x0 k' k'.+2
                        else tri (tD sg.1.1.1) (tE sg.1.1.1)) }.

Lemma hsweep_stepP D0 E0 p n i sg : (i.+1 < n)%N -> (p + n <= N)%N ->
  ((p + n < N)%N -> E0 (p + n).-1 = 0) -> hsw D0 E0 p n i sg ->
  let sg' := hsweep_step 0 M p n i sg in
  if (i < n - 2)%N then hsw D0 E0 p n i.+1 sg'
  else [/\ invT (tU sg'.1.1.1) (tri (tD sg'.1.1.1) (tE sg'.1.1.1)), realsT (tD sg'.1.1.1) (tE sg'.1.1.1),
    (forall j, ~~ (p <= j < p + n)%N -> tD sg'.1.1.1 j = D0 j) &
    (forall j, ~~ ((p <= j) && (j.+1 < p + n))%N -> tE sg'.1.1.1 j = E0 j)].
Proof.
  case: sg => [[[[U D E] x] c] s] hi hn Eq [/= g x0 [r1 r2] fD fE [e0 [y0 [w1 w2]]]]; rewrite /hsweep_step.
  set k := (p + i)%N in w1 w2 *.
  have [gr1 gr2] : c \is Num.real /\ s \is Num.real by case: g.
  have cs : s^* = s by exact: CrealP.
  have hk : (k.+1 < N)%N by rewrite /k; lia.
  have rDk : D k \is Num.real by apply: r1; lia.
  have rDm : D k.+1 \is Num.real by apply: r1; lia.
  have rEk : E k \is Num.real by apply: r2; lia.
  have kk : (k == k.+1) = false by lia.
  have kk' : (k.+1 == k) = false by lia.
  have r2R : (2%:R : C) \is Num.real by exact: realn.
  rewrite /gsmult /gmult x0 cs !mulr0 add0r subr0.
  set dd := 2%:R * c * (s * E k) + s * (D k.+1 - D k) * s.
  have rdd : dd \is Num.real by rewrite /dd rpredD ?rpredM // rpredB.
  set D1 := updv (updv D k _) k.+1 _.
  set e1 := E k + _.
  have re1 : e1 \is Num.real by rewrite /e1 rpredD ?rpredM // rpredB ?rpredM // rpredB.
  set E1 := updv E k e1.
  have rD1 j : (j < N)%N -> D1 j \is Num.real.
    move=> hj; rewrite /D1 /updv; case: eqP => _; first by rewrite rpredB.
    by case: eqP => _; [rewrite rpredD|exact: r1].
  have rE1 j : (j.+1 < N)%N -> E1 j \is Num.real.
    by move=> hj; rewrite /E1 /updv; case: eqP => _ //; exact: r2.
  have fD1 j : ~~ (p <= j < p + n)%N -> D1 j = D0 j.
    move=> hj; have n1 : (j == k) = false by clear -hj hi; lia.
    have n2 : (j == k.+1) = false by clear -hj hi; lia.
    by rewrite /D1 /updv n1 n2 fD.
  have fE1 j : ~~ ((p <= j) && (j.+1 < p + n))%N -> E1 j = E0 j.
    move=> hj; have n1 : (j == k) = false by clear -hj hi; lia.
    by rewrite /E1 /updv n1 fE.
  have e1m : E1 k.+1 = E k.+1 by rewrite /E1 /updv kk'.
  have h2 : invT (rotcols c s M k k.+1 U) (trb D1 (updv E1 k.+1 (c * E k.+1)) (s * E k.+1) k k.+2).
    case ek : k => [|k'].
      have hk0 := hk; rewrite ek in hk0 w2.
      have h := @sweepT U D E 0 0 c s hk0 g _ w2.
      by apply: (invT_trbE (h _)) => // j hj; rewrite /D1 /dd /E1 /e1 ek.
    have [w3 w4] : c * y0 - s * e0 = 0 /\ E k' = c * e0 + s * y0.
      by move: w1; rewrite ek => /(_ isT).
    have hk0 := hk; rewrite ek in hk0 w2.
    have h := @sweepT U D (updv E k' e0) y0 k'.+1 c s hk0 g _ w2.
    have u1 : updv E k' e0 k' = e0 by rewrite /updv eqxx.
    have u2 : updv E k' e0 k'.+1 = E k'.+1 by rewrite /updv; have -> : (k'.+1 == k') = false by lia.
    have u3 : updv E k' e0 k'.+2 = E k'.+2 by rewrite /updv; have -> : (k'.+2 == k') = false by lia.
    move: h; rewrite /= u1 u2 u3 => h.
    apply: (invT_trbE (h _)) => //; first by move=> j hj; rewrite /D1 /dd ek.
    move=> j hj; rewrite /E1 /e1 ek /updv; case: eqP => // _; case: eqP => // _.
    by case: eqP => // ->; rewrite w4.
  rewrite e1m; case: (ltnP i (n - 2)) => hlt; cbn [fst snd tU tD tE]; last first.
    split=> //.
    case: (ltnP k.+2 N) => hk2; last first.
      apply: invT_ext h2 _ => a b ha hb; rewrite /trb /tri /updv.
      have a1 : (a == k.+1) = (a == k.+1) by [].
      by deq; rewrite /= ?andbF //; exfalso; lia.
    have E0k : E k.+1 = 0 by rewrite fE; [have -> : k.+1 = (p + n).-1 by rewrite /k; lia|rewrite /k; lia]; apply: Eq; rewrite /k in hk2; lia.
    move: h2; rewrite E0k !mulr0 => h2; apply: invT_ext h2 _ => a b ha hb.
    rewrite trb0; last lia.
    have e0' j : updv E1 k.+1 0 j = E1 j by rewrite /updv; case: eqP => // ->; rewrite e1m E0k.
    by rewrite /tri !e0'.
  set E2 := updv E1 k.+1 _ in h2 *.
  have e2k : E2 k = E1 k by rewrite /E2 /updv kk.
  have hk2 : (k.+2 < N)%N by rewrite /k; lia.
  have hE : E k.+1 \is Num.real by apply: r2; lia.
  have rE2k : E2 k \is Num.real by rewrite e2k; apply: rE1.
  have rxm : s * E k.+1 \is Num.real by rewrite rpredM.
  have [g'' gx' gy' ex' e0'] := grot_grt rE2k rxm.
  set r' := grot _ _ _ in g'' gx' gy' ex' e0' *.
  have rE2 j : (j.+1 < N)%N -> E2 j \is Num.real.
    by move=> hj; rewrite /E2 /updv; case: eqP => _; [rewrite rpredM|exact: rE1].
  constructor; cbn [fst snd tU tD tE].
  - exact: g''.
  - exact: gy'.
  - by split=> [j hj|j hj]; [exact: rD1|rewrite /updv; case: eqP => _; [exact: gx'|exact: rE2]].
  - exact: fD1.
  - move=> j hj; have n1 : (j == k) = false by clear -hj hi; lia.
    have n2 : (j == k.+1) = false by clear -hj hi hlt; lia.
    have -> : forall v, updv E2 k v j = E2 j by move=> v; rewrite /updv n1.
    by rewrite /E2 /updv n2 fE1.
  exists (E2 k), (s * E k.+1); rewrite addnS -/k /=; split.
    by move=> _; split; [exact: e0'|rewrite [LHS]/updv eqxx].
  apply: invT_trbE h2 _ _ _ => // j hj; rewrite /updv; case: eqP => // ->; by [].
Qed.

Lemma HTrailing_real p n D E : (1 < n)%N -> (p + n <= N)%N -> realsT D E -> HTrailingEV p n D E \is Num.real.
Proof.
  move=> n1 hn [r1 r2]; rewrite /HTrailingEV.
  have ra : D (p + n - 2)%N \is Num.real by apply: r1; lia.
  have rc : D (p + n - 1)%N \is Num.real by apply: r1; lia.
  have rd : (D (p + n - 1)%N - D (p + n - 2)%N) / 2%:R \is Num.real by rewrite rpred_div ?rpredB // realn.
  case: eqP => _; first by rewrite rpredD // normr_real.
  have nr : `|E (p + n - 2)%N| \is Num.real by exact: normr_real.
  apply: rpredD => //; apply: rpred_div; first by apply: rpredM => //; apply: rpred_div.
  rewrite rpredD ?real1 // ger0_real // sqrtC_ge0 addr_ge0 // exprn_ge0 //.
Qed.

Lemma HReduceP p n st : isoT p n (tE st) -> InvT st -> InvT (HReduce 0 M p n st) /\ frmT p n st (HReduce 0 M p n st).
Proof.
  move=> [n0 hn Ep Eq] [hi [r1 r2]]; rewrite /HReduce; case: eqP => n1; first by [].
  have n2 : (1 < n)%N by lia.
  have rmu := HTrailing_real n2 hn (conj r1 r2).
  have rx : tD st p - HTrailingEV p n (tD st) (tE st) \is Num.real by rewrite rpredB // r1 //; lia.
  have ry : tE st p \is Num.real by apply: r2; lia.
  have [g gx gy ex e0] := grot_grt rx ry; set r := grot _ _ _ in g gx gy ex e0 *.
  have H k : (k < n - 1)%N -> hsw (tD st) (tE st) p n k
      (foldl (fun sg i => hsweep_step 0 M p n i sg) (st, r_y r, r_c r, r_s r) (iota 0 k)).
    elim: k => [|k IH] hk.
      constructor=> //=.
      exists (tE st p.-1), 0; rewrite addn0; split.
        by move=> hp; rewrite Ep // !mulr0 subrr addr0.
      case: p {n1 n2 rmu rx ry g gx gy ex e0 r hk} hn Ep Eq => [|p] hn Ep Eq //.
      apply: invT_ext hi _ => i j _ _; rewrite trb0 //.
      have e j' : updv (tE st) p (tE st p.+1.-1) j' = tE st j' by rewrite /updv; case: eqP => // ->.
      by rewrite /tri !e.
    rewrite foldl_iotaS; have hk' : (k < n - 1)%N by lia.
    have := @hsweep_stepP _ _ p n k _ ltac:(lia) hn Eq (IH hk'); cbv zeta.
    by have -> : (k < n - 2)%N by lia.
  have en : (n - 1 = (n - 2).+1)%N by lia.
  rewrite en foldl_iotaS; have := @hsweep_stepP _ _ p n (n - 2) _ ltac:(lia) hn Eq (H (n - 2)%N ltac:(lia)); cbv zeta.
  by rewrite ltnn; case=> h1 h2 h3 h4.
Qed.
End Proofs.
