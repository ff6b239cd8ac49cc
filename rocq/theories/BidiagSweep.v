(** The implicit QR sweep keeps U B Vt. *)
From Coq Require Import Ring Field.
From Verif Require Import Base FMat RowPerm LUDiv RingTac Cplx Givens Claims_Givens QRProofs BidiagProofs BidiagQR BidiagQRProofs.
From mathcomp Require Import all_ssreflect all_algebra zify.
Set Implicit Arguments. Unset Strict Implicit. Unset Printing Implicit Defensive.
Import GRing.Theory Num.Theory Order.Theory.
Local Open Scope ring_scope.

Section Proofs.
Variable C : numClosedFieldType.
Add Field Cf : (mc_ft C).
Ltac mring := mcnorm C; ring.
Implicit Types (c s x y : C) (X U B V : fm C) (D E : fv C) (st : bst C).
Variables M N P : nat.
Variable A0 : 'M[C]_(M, P).
Local Notation inv := (@inv C M N P A0).
Local Notation reals := (@reals C N).

Record swi (D0 E0 : fv C) (p n i : nat) (sg : bst C * C * C * C) : Prop := Swi {
  w_g : grt sg.1.2 sg.2;
  w_x : sg.1.1.2 = 0;
  w_r : reals (sD sg.1.1.1) (sE sg.1.1.1);
  w_D : forall j, ~~ (p <= j < p + n)%N -> sD sg.1.1.1 j = D0 j;
  w_E : forall j, ~~ ((p <= j) && (j.+1 < p + n))%N -> sE sg.1.1.1 j = E0 j;
  w_i : if i == 1%N then inv (sU sg.1.1.1) (bidi (sD sg.1.1.1) (sE sg.1.1.1)) (sV sg.1.1.1)
        else exists e0 x0, [/\ sg.1.2 * x0 - sg.2 * e0 = 0, sE sg.1.1.1 (p + i - 2)%N = sg.1.2 * e0 + sg.2 * x0 &
          inv (sU sg.1.1.1) (bl (sD sg.1.1.1) (updv (sE sg.1.1.1) (p + i - 2) e0) x0 (p + i - 2) (p + i)) (sV sg.1.1.1)] }.

Lemma inv_blE U D E D' E' V x y a b : inv U (bl D E x a b) V -> (forall i, (i < N)%N -> D i = D' i) ->
  (forall i, (i.+1 < N)%N -> E i = E' i) -> x = y -> inv U (bl D' E' y a b) V.
Proof.
  move=> h hD hE <-; apply: inv_ext h _ => i j hi hj; rewrite /bl; case: ifP => // _; rewrite /bidi.
  case: eqP => [->|_]; first exact: hD.
  by case: eqP => [e|_] //; apply: hE; lia.
Qed.
Lemma inv_bidiE U D E D' E' V : inv U (bidi D E) V -> (forall i, (i < N)%N -> D i = D' i) ->
  (forall i, (i.+1 < N)%N -> E i = E' i) -> inv U (bidi D' E') V.
Proof.
  move=> h hD hE; apply: inv_ext h _ => i j hi hj; rewrite /bidi.
  case: eqP => [->|_]; first exact: hD.
  by case: eqP => [e|_] //; apply: hE; lia.
Qed.

Lemma sweep_stepP D0 E0 p n i sg : (0 < i < n)%N -> (p + n <= N)%N -> ((0 < p)%N -> E0 p.-1 = 0) ->
  ((p + n < N)%N -> E0 (p + n).-1 = 0) -> swi D0 E0 p n i sg ->
  let sg' := sweep_step 0 M P p n i sg in
  if (i < n - 1)%N then swi D0 E0 p n i.+1 sg'
  else [/\ inv (sU sg'.1.1.1) (bidi (sD sg'.1.1.1) (sE sg'.1.1.1)) (sV sg'.1.1.1), reals (sD sg'.1.1.1) (sE sg'.1.1.1),
    (forall j, ~~ (p <= j < p + n)%N -> sD sg'.1.1.1 j = D0 j) &
    (forall j, ~~ ((p <= j) && (j.+1 < p + n))%N -> sE sg'.1.1.1 j = E0 j)].
Proof.
  case: sg => [[[[U D E V] x] c] s] hi hn Ep Eq [/= g x0 [r1 r2] fD fE wi]; rewrite /sweep_step.
  set k := (p + i - 1)%N; have em : (p + i)%N = k.+1 by lia.
  have [gr1 gr2] : c \is Num.real /\ s \is Num.real by case: g.
  have cs : s^* = s by exact: CrealP.
  have hk : (k.+1 < N)%N by lia.
  have rDk : D k \is Num.real by apply: r1; lia.
  have rDm : D k.+1 \is Num.real by apply: r1; lia.
  have rEk : E k \is Num.real by apply: r2; lia.
  rewrite em x0 /gmult /= cs !mulr0 add0r subr0.
  have kk : (k == k.+1) = false by lia.
  have kk' : (k.+1 == k) = false by lia.
  have e1 : updv D k (c * D k + s * E k) k.+1 = D k.+1 by rewrite /updv kk'.
  rewrite e1; set D1 := updv (updv D k _) k.+1 _; set E1 := updv E k _.
  have d1k : D1 k = c * D k + s * E k by rewrite /D1 /updv kk eqxx.
  have d1m : D1 k.+1 = c * D k.+1 by rewrite /D1 /updv eqxx.
  have e1k : E1 k = c * E k - s * D k by rewrite /E1 /updv eqxx.
    have hcol : inv U (bl D1 E1 (s * D k.+1) k.+1 k) (rotrows c s P k k.+1 V).
    move: wi; case: eqP => [i1|i1 [e0 [y0 [w1 w2 w3]]]].
      by move=> wi; apply: swcol0 => // hk0; rewrite fE; [have -> : k = p by lia|lia]; apply: Ep; lia.
    have ek : (p + i - 2)%N = k.-1 by lia.
    rewrite ek in w2 w3; rewrite em in w3.
    have hk0 : (0 < k)%N by lia.
    apply: inv_blE (swcol1 hk0 hk w1 g w3) _ _ _ => // j hj; rewrite -?w2 /D1 /E1 /updv; deq=> //; subst=> //.
    all: try by exfalso; lia.
  have rd1 : D1 k \is Num.real by rewrite d1k rpredD // rpredM.
  have rx : s * D k.+1 \is Num.real by rewrite rpredM.
  have [g' gx gy ex e0] := grot_grt rd1 rx; set r := grot _ _ _ in g' gx gy ex e0 *.
  have gs : (r_s r)^* = r_s r by case: g' => _ hs _ _; exact: CrealP.
  have [hr1 hr2] : r_c r \is Num.real /\ r_s r \is Num.real by case: g'.
  rewrite gs; have e2 : updv D1 k (r_x r) k.+1 = c * D k.+1 by rewrite /updv kk' d1m.
  rewrite e2; set D2 := updv (updv D1 _ _) _ _; set E2 := updv E1 _ _.
  have rD2 j : (j < N)%N -> D2 j \is Num.real.
    move=> hj; rewrite /D2 /updv; case: eqP => [_|_]; first by rewrite e1k rpredB ?rpredM // rpredB ?rpredM.
    case: eqP => // _; rewrite /D1 /updv; case: eqP => _; first by rewrite rpredM.
    by case: eqP => _; [rewrite rpredD // rpredM|exact: r1].
  have rE2 j : (j.+1 < N)%N -> E2 j \is Num.real.
    move=> hj; rewrite /E2 /updv; case: eqP => _; first by rewrite e1k rpredD ?rpredM // rpredB ?rpredM.
    rewrite /E1 /updv; case: eqP => _; [by rewrite rpredB ?rpredM|exact: r2].
  have fD2 j : ~~ (p <= j < p + n)%N -> D2 j = D0 j.
    move=> hj; have n1 : (j == k) = false by clear -hj hi; lia.
    have n2 : (j == k.+1) = false by clear -hj hi; lia.
    by rewrite /D2 /D1 /updv n1 n2 fD.
  have fE2 j : ~~ ((p <= j) && (j.+1 < p + n))%N -> E2 j = E0 j.
    move=> hj; have n1 : (j == k) = false by clear -hj hi; lia.
    by rewrite /E2 /E1 /updv n1 fE.
  have e2m : E2 k.+1 = E k.+1 by rewrite /E2 /E1 /updv kk'.
  case: ltnP => hlt /=; last first.
    split=> //.
    apply: inv_bidiE (swrow_last hk e0 g' _ hcol) _ _.
    - by move=> hk2; rewrite /E1 /updv kk' fE; [have -> : k.+1 = (p + n).-1 by lia|lia]; apply: Eq; lia.
    - by move=> j hj; rewrite /D2 -ex d1m /updv.
    - by move=> j hj; rewrite /E2 d1m.
  have h2 := swrow hk e0 g' hcol; rewrite gy !mulr0 add0r subr0 e2m.
  have hE : E k.+1 \is Num.real by apply: r2; lia.
  set E3 := updv E2 _ _.
  have e3k : E3 k = E2 k by rewrite /E3 /updv kk.
  have rE3k : E3 k \is Num.real by rewrite e3k; apply: rE2.
  have rxm : r_s r * E k.+1 \is Num.real by rewrite rpredM.
  have [g'' gx' gy' ex' e0'] := grot_grt rE3k rxm.
  set r' := grot _ _ _ in g'' gx' gy' ex' e0' *.
  have rE3 j : (j.+1 < N)%N -> E3 j \is Num.real.
    by move=> hj; rewrite /E3 /updv; case: eqP => _; [rewrite rpredM|exact: rE2].
  constructor; cbn [fst snd sU sD sE sV].
  - exact: g''.
  - exact: gy'.
  - by split=> [j hj|j hj]; [exact: rD2|rewrite /updv; case: eqP => _; [exact: gx'|exact: rE3]].
  - exact: fD2.
  - move=> j hj; have n1 : (j == k) = false by clear -hj hi; lia.
    have n2 : (j == k.+1) = false by clear -hj hi hlt; lia.
    have -> : forall v, updv E3 k v j = E3 j by move=> v; rewrite /updv n1.
    by rewrite /E3 /updv n2 fE2.
  have -> : (i.+1 == 1%N) = false by clear -hi; lia.
  exists (E3 k), (r_s r * E k.+1).
  have -> : (p + i.+1 - 2)%N = k by clear -hi; lia.
  have -> : (p + i.+1)%N = k.+2 by clear -em; lia.
  split; [exact: e0'|by rewrite [LHS]/updv eqxx|].
  apply: inv_blE h2 _ _ _.
  - by move=> j hj; rewrite /D2 -ex d1m.
  - move=> j hj; have -> : forall v w, updv (updv E3 k v) k w j = updv E3 k w j by move=> v w; rewrite /updv; case: eqP.
    rewrite [in RHS]/updv; case: (j =P k) => [->|njk]; first by rewrite e3k /E2 d1m /updv kk eqxx.
    have n1 : (j == k) = false by apply/eqP.
    by rewrite /E3 /E2 /E1 /updv n1 kk'; case: eqP => // _.
  - by rewrite /E1 /updv kk'.
Qed.
End Proofs.
