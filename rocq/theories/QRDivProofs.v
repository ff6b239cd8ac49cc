(** Proofs about the use of a QR decomposition. *)
From Coq Require Import Ring Field.
From Verif Require Import Base FMat TriSolve TriInv Claims_Tri LUDiv RingTac Cplx Chol Givens QR QRProofs QRDiv.
From mathcomp Require Import all_ssreflect all_fingroup all_algebra zify.
Set Implicit Arguments. Unset Strict Implicit. Unset Printing Implicit Defensive.
Import GRing.Theory Num.Theory Order.Theory.
Local Open Scope ring_scope.

Section Q.
Variable C : numClosedFieldType.
Add Field Cf : (mc_ft C).
Ltac mfield := mcnorm C; field.
Ltac mring := mcnorm C; ring.
Variable M : nat.
Implicit Types (A Q Y Z m : fm C) (beta : fv C).

Definition zpost (o n : nat) Y beta Z Z' : Prop :=
  [/\ zok M Y Z' o n, forall k, (o <= k < o + n)%N -> Z' k k = (beta k)^*
    & forall k l, ~~ ((o <= k < o + n) && (o <= l < o + n))%N -> Z' k l = Z k l].

Lemma MakeZP fuel o n Y beta Z : (n < fuel)%N -> (0 < n)%N -> (o + n <= M)%N ->
  exists Z', MakeZ fuel M o n Y beta Z = Ok Z' /\ zpost o n Y beta Z Z'.
Proof.
  elim: fuel o n Z => // f IH o n Z hf hn hM /=.
  case: (eqVneq n 1%N) => [->|n1].
    eexists; split; first by [].
    split; first exact: zok1.
    - move=> k hk; have -> : k = o by lia.
      by rewrite /updm !eqxx.
    - by move=> k l h; rewrite /updm; case: ifP => // /andP [/eqP ek /eqP el]; exfalso; lia.
  case: (eqVneq n 2%N) => [->|n2].
    eexists; split; first by [].
    split; first by apply: makeZ01P; lia.
    - move=> k hk; rewrite /makeZ01 /updm; have [->|->] : k = o \/ k = o.+1 by lia.
        by rewrite !eqxx (ltn_eqF (ltnSn o)).
      by rewrite !eqxx (gtn_eqF (ltnSn o)).
    - move=> k l h; rewrite /makeZ01 /updm.
      repeat (case: ifP => [/andP [/eqP ek /eqP el]|_]; first by exfalso; lia); by [].
  set j1 := (n.+1 %/ 2)%N; have hj : (0 < j1 < n)%N by rewrite /j1; lia.
  have [Z1 [-> [k1 d1 f1]]] := IH o j1 Z ltac:(lia) ltac:(lia) ltac:(lia).
  rewrite /=; have [Z2 [-> [k2 d2 f2]]] := IH (o + j1)%N (n - j1)%N Z1 ltac:(lia) ltac:(lia) ltac:(lia).
  rewrite /=; have en : (j1 + (n - j1) = n)%N by lia.
  eexists; split; first by [].
  split.
  - have := @makeZ3P _ M o j1 (n - j1) Y Z2; rewrite en => H; apply: H; [lia| |exact: k2].
    by apply: (zok_ext _ _ k1) => // k l hk hl; rewrite f2 //; lia.
  - move=> k hk; rewrite /makeZ3; case: ifP => h; first by exfalso; lia.
    case: (ltnP k (o + j1)) => hk1; last by apply: d2; lia.
    by rewrite f2; [apply: d1|]; lia.
  - move=> k l h; rewrite /makeZ3; case: ifP => h1; first by exfalso; lia.
    by rewrite f2; [apply: f1|]; lia.
Qed.

Definition zb beta : fv C := fun k => (beta k)^*.
Lemma zpost_Pr o n Y beta Z Z' : zpost o n Y beta Z Z' ->
  1%:M - Ymx M Y o n *m Zmx Z' o n *m ctr (Ymx M Y o n) = Pr M Y (zb beta) o n.
Proof.
  by case=> h1 h2 _; rewrite h1; apply: Pr_ext => // k hk; rewrite h2.
Qed.

(** The unit vector e_c. *)
Definition ev (c : nat) : 'cV[C]_M := \col_i (if (i == c :> nat) then 1 else 0).

(** After the columns from j on are formed. *)
Definition ginv (N j : nat) A beta Q : Prop :=
  (forall c, (j <= c < N)%N -> colv M Q c = Pr M A (zb beta) j (N - j) *m ev c) /\
  (forall i c, (i < M)%N -> (c < j)%N -> Q i c = if (i <= c)%N then 0 else A i c) /\
  (forall i c, ~~ ((i < M) && (c < N))%N -> (i <= c < N)%N = false -> Q i c = A i c).

Lemma ginv0 N A beta : (N <= M)%N -> ginv N N A beta (zeroup N A).
Proof.
  move=> h; split; first by move=> c hc; exfalso; lia.
  split=> [i c hi hc|i c hi hc]; rewrite /zeroup; first by rewrite hc andbT.
  by rewrite hc.
Qed.

Lemma ctr_yv_ev A k c : (c < M)%N -> ctr (yv M A k) *m ev c = ((yelt A c k)^*)%:M.
Proof.
  move=> hc; apply/matrixP => i j; rewrite !ord1 !mxE eqxx mulr1n (bigD1 (Ordinal hc)) //= big1 ?addr0.
    by rewrite !mxE eqxx mulr1.
  move=> l hl; rewrite !mxE; case: eqP => [e|_]; last by rewrite mulr0.
  by exfalso; move: hl; rewrite -val_eqE /= e eqxx.
Qed.

Lemma hunpackP N i A beta Q : (i < N)%N -> (N <= M)%N ->
  (beta i = 0 -> forall r, (i < r < M)%N -> A r i = 0) ->
  ginv N i.+1 A beta Q -> ginv N i A beta (hunpack M i N (beta i) Q).
Proof.
  move=> hi hN hz [g1 [g2 g3]].
  set Q1 := hlmult M i i.+1 N (fun r => Q r i) (beta i)^* Q.
  have eP : Pr M A (zb beta) i (N - i) = Hm (zb beta i) (yv M A i) *m Pr M A (zb beta) i.+1 (N - i.+1).
    by have -> : (N - i = (N - i.+1).+1)%N by lia.
  have ey : yv M Q i = yv M A i.
    apply: yv_ext => r hr; rewrite g2; [|lia|lia].
    by have -> : (r <= i)%N = false by lia.
  have q1 r c : (i.+1 <= c < N)%N = false -> Q1 r c = Q r c.
    by move=> h; rewrite /Q1 hlmult_fr // h andbF.
  have qu r c : (c != i)%N -> hunpack M i N (beta i) Q r c = Q1 r c.
    by move=> h; rewrite /hunpack -/Q1; case: ifP => _; rewrite /updm /setbelow (negbTE h) ?andbF.
  split; [|split].
  - move=> c hc; rewrite eP -mulmxA; case: (eqVneq c i) => [->|hci]; last first.
      rewrite -g1; last lia.
      have -> : colv M (hunpack M i N (beta i) Q) c = colv M Q1 c.
        by apply/matrixP => r j; rewrite !mxE qu.
      by rewrite /Q1 hlmultE ?ey //; lia.
    rewrite Pr_fix; last first.
      by move=> r hr; rewrite mxE; case: eqP => // e; exfalso; lia.
    rewrite /Hm mulmxBl mul1mx -scalemxAl -mulmxA ctr_yv_ev; last lia.
    rewrite /yelt eqxx conjC1 mulmx1; apply/matrixP => r j; rewrite !mxE /yelt /zb.
    have hr := ltn_ord r; rewrite /hunpack -/Q1; case: (eqVneq (beta i) 0) => [b0|b0].
      rewrite b0 conjC0 mul0r subr0 /updm eqxx andbT; case: ifP => // hri.
      rewrite q1; last lia.
      rewrite g2 //; case: ifP => // hri2; apply: hz => //; lia.
    rewrite /setbelow eqxx /= hr andbT; case: (ltngtP (r : nat) i) => hri /=.
    + rewrite mulr0 subr0 q1; last lia.
      by rewrite g2 // (ltnW hri).
    + rewrite q1; last lia.
      rewrite g2 //; have -> : (r <= i)%N = false by lia.
      by mring.
    + by rewrite mulr1.
  - move=> r c hr hc; have hci : c != i by lia.
    rewrite qu // q1; last lia.
    by apply: g2 => //; lia.
  - move=> r c h1 h2; case: (eqVneq c i) => [ec|hci].
      have hr : (M <= r)%N by lia.
      have e1 : Q1 r c = Q r c by rewrite /Q1 hlmult_fr //; lia.
      rewrite -g3 // -e1 /hunpack -/Q1; case: ifP => _.
        by rewrite /updm (_ : (r == i) = false) //; lia.
      by rewrite /setbelow (_ : (i <= r < M)%N = false) ?andbF //; lia.
    by rewrite qu // /Q1 hlmult_fr; [apply: g3|lia].
Qed.

Lemma GetQloopP N n A beta Q : (n <= N)%N -> (N <= M)%N ->
  (forall k, (k < N)%N -> beta k = 0 -> forall r, (k < r < M)%N -> A r k = 0) ->
  ginv N n A beta Q -> ginv N 0 A beta (GetQloop M N n beta Q).
Proof.
  elim: n Q => //= n IH Q hn hN hz G; apply: IH => //; first lia.
  by apply: hunpackP => // b0; apply: hz => //; lia.
Qed.

Lemma bunpackP N o n A beta Q Z Z' : (0 < n)%N -> (o + n <= N)%N -> (N <= M)%N ->
  zpost o n Q beta Z Z' -> ginv N (o + n) A beta Q -> ginv N o A beta (bunpack M o n N Z' Q).
Proof.
  move=> hn hN hM hz [g1 [g2 g3]].
  have eA r k : (k < o + n)%N -> (k < r < M)%N -> Q r k = A r k.
    by move=> hk hr; rewrite g2 //; [have -> : (r <= k)%N = false by lia|lia].
  have eP : Pr M A (zb beta) o (N - o) = Pr M Q (zb beta) o n *m Pr M A (zb beta) (o + n) (N - (o + n)).
    have -> : (N - o = n + (N - (o + n)))%N by lia.
    by rewrite Pr_cat; congr (_ *m _); apply: Pr_ext => // r k hk hr; rewrite eA //; lia.
  split; [|split].
  - move=> c hc; rewrite eP -mulmxA -(zpost_Pr hz); case: (leqP (o + n) c) => hcn.
      rewrite -g1; last lia.
      have -> : colv M (bunpack M o n N Z' Q) c = colv M (blockmult false M o n (o + n) N Q Z' Q) c.
        apply/matrixP => r j; rewrite !mxE /bunpack.
        by have -> : (o <= c < o + n)%N = false by lia.
      by rewrite blockmultE //; lia.
    rewrite Pr_fix; last first.
      by move=> r hr; rewrite mxE; case: eqP => // e; exfalso; lia.
    rewrite mulmxBl mul1mx -!mulmxA.
    have hcM : (c < M)%N by lia.
    have eW : ctr (Ymx M Q o n) *m ev c = \col_t (yelt Q c (o + t)%N)^*.
      apply/matrixP => t j; rewrite !mxE (bigD1 (Ordinal hcM)) //= big1 ?addr0.
        by rewrite !mxE eqxx mulr1.
      move=> l hl; rewrite !mxE; case: eqP => [e|_]; last by rewrite mulr0.
      by exfalso; move: hl; rewrite -val_eqE /= e eqxx.
    rewrite eW.
    set temp := fun k l => - \sum_(o <= t < o + n) zelt Z' k t * (yelt Q l t)^*.
    have et k : (o <= k < o + n)%N -> zelt temp k c = temp k c.
      move=> hk; rewrite /zelt; case: leqP => // hck.
      rewrite /temp big_nat big1 ?oppr0 // => t ht; rewrite /zelt /yelt.
      case: (leqP k t) => h1; last by rewrite mul0r.
      have h2 : (c < t)%N by lia.
      by rewrite (ltn_eqF h2) ltnNge (ltnW h2) /= conjC0 mulr0.
    have eS (g : nat -> C) (r : 'I_M) : (forall k, (o <= k < o + n)%N -> g k = yelt Q r k) ->
      \sum_(o <= k < o + n) g k * zelt temp k c =
      - (Ymx M Q o n *m (Zmx Z' o n *m \col_t (yelt Q c (o + t)%N)^*)) r 0.
      move=> hg; rewrite sum_shift mxE -sumrN; apply: eq_bigr => k _; have hk := ltn_ord k.
      rewrite hg; last lia.
      rewrite et; last lia.
      rewrite /temp mulrN sum_shift [Ymx _ _ _ _ _ _]mxE; congr (- (_ * _)).
      by rewrite mxE; apply: eq_bigr => t _; rewrite !mxE.
    apply/matrixP => r j; rewrite !ord1; have hr := ltn_ord r.
    rewrite [colv _ _ _ _ _]mxE [RHS]mxE [X in _ + X]mxE [ev c r 0]mxE /bunpack -/temp.
    have -> : (o <= c < o + n)%N by lia.
    rewrite /= hr andbT; case: (leqP o r) => hor /=; last first.
      rewrite blockmult_fr; last lia.
      rewrite g2 //; have -> : (r <= c)%N by lia.
      have -> : (r == c :> nat) = false by lia.
      rewrite add0r mxE big1 ?oppr0 // => k _; rewrite mxE /yelt.
      have h1 : (r < o + k)%N by lia.
      by rewrite (ltn_eqF h1) ltnNge (ltnW h1) /= mul0r.
    case: ifP => hrn; first by rewrite (@eS (fun k => yelt Q r k) r) // addrC.
    rewrite (@eS (fun k => Q r k) r); last first.
      move=> k hk; rewrite /yelt; have h1 : (k < r)%N by lia.
      by rewrite (gtn_eqF h1) h1.
    have -> : (r == c :> nat) = false by lia.
    by rewrite add0r.
  - move=> r c hr hc; rewrite /bunpack; have -> : (o <= c < o + n)%N = false by lia.
    by rewrite /= blockmult_fr; [apply: g2 => //; lia|lia].
  - move=> r c h1 h2; rewrite -g3 // /bunpack; case: ifP => h; first by exfalso; lia.
    by rewrite blockmult_fr //; lia.
Qed.

Section Blk.
Variable nb : nat.
Hypothesis nbP : (0 < nb)%N.
Arguments MakeZ : simpl never.

Lemma BGetQloopP fuel N j2 A beta Z Q : (j2 <= fuel)%N -> (j2 <= N)%N -> (N <= M)%N ->
  ginv N j2 A beta Q ->
  exists Q', BGetQloop nb fuel M N j2 beta Z Q = Ok Q' /\ ginv N 0 A beta Q'.
Proof using nbP.
  elim: fuel j2 Z Q => [|f IH] j2 Z Q hf hj hM G /=.
    have e : j2 = 0%N by lia.
    by rewrite e /= in G *; exists Q.
  case: (posnP j2) => [e|h]; first by rewrite e in G; exists Q.
  set j1 := if (nb < j2)%N then _ else _.
  have hj1 : (j1 < j2)%N by rewrite /j1; case: ifP; lia.
  have hp : (0 < j2 - j1)%N by lia.
  have hq : (j1 + (j2 - j1) <= M)%N by lia.
  have [Z' [-> HZ]] := MakeZP Q beta Z (ltnSn (j2 - j1)) hp hq.
  rewrite /=; apply: IH; [lia|lia|by []|].
  apply: (bunpackP _ _ _ HZ) => //; first lia.
  by have -> : (j1 + (j2 - j1) = j2)%N by lia.
Qed.

Lemma GetQFromQRP N A beta Z0 : (N <= M)%N ->
  (forall k, (k < N)%N -> beta k = 0 -> forall r, (k < r < M)%N -> A r k = 0) ->
  exists Q, GetQFromQR nb M N A beta Z0 = Ok Q /\
    (forall c, (c < N)%N -> colv M Q c = Pr M A (zb beta) 0 N *m ev c) /\
    (forall i c, ~~ ((i < M) && (c < N))%N -> (i <= c < N)%N = false -> Q i c = A i c).
Proof using nbP.
  move=> hM hz; have G0 := @ginv0 N A beta hM; rewrite /GetQFromQR; case: ifP => h.
    have [Q [-> [g1 [g2 g3]]]] := BGetQloopP Z0 (leqnn N) (leqnn N) hM G0.
    by exists Q; split=> //; split=> // c hc; rewrite g1 ?subn0.
  have [g1 [g2 g3]] := GetQloopP (leqnn N) hM hz G0; eexists; split; first by [].
  by split=> // c hc; rewrite g1 ?subn0.
Qed.
End Blk.

Arguments MakeZ : simpl never.
(** Q^-1 from the left. *)
Definition linv (K j : nat) Q beta m m' : Prop :=
  (forall c, (c < K)%N -> colv M m' c = ctr (Pr M Q (zb beta) 0 j) *m colv M m c) /\ framed M K m' m.
Lemma NBQLDivEqP N K Q beta m : (N <= M)%N -> linv K N Q beta m (NBQLDivEq M N K Q beta m).
Proof.
  move=> hM; rewrite /NBQLDivEq.
  apply: (fold_iota_inv (I := fun j m' => linv K j Q beta m m')).
    by split=> // c hc; rewrite /= ctr1 mul1mx.
  move=> j m1 hj [h1 h2].
  have -> : (if beta j != 0 then hlmult M j 0 K (fun r => Q r j) (beta j) m1 else m1)
            = hlmult M j 0 K (fun r => Q r j) (beta j) m1.
    by case: eqP => // e; rewrite /hlmult e eqxx.
  split.
    move=> c hc; rewrite hlmultE ?h1 //; last lia.
    have -> : Pr M Q (zb beta) 0 j.+1 = Pr M Q (zb beta) 0 j *m Hm (zb beta j) (yv M Q j).
      by rewrite -[in LHS]addn1 Pr_cat /= mulmx1 add0n.
    by rewrite ctrM ctrHm /zb conjCK mulmxA.
  by move=> i c hic; rewrite hlmult_fr ?h2 //; lia.
Qed.
Lemma BQLDivEqP nb fuel N K j Q beta Z m m1 : (0 < nb)%N -> (N - j <= fuel)%N -> (j <= N)%N -> (N <= M)%N ->
  linv K j Q beta m m1 ->
  exists m', BQLDivEq nb fuel M N K j Q beta Z m1 = Ok m' /\ linv K N Q beta m m'.
Proof.
  move=> nbP; elim: fuel j Z m1 => [|f IH] j Z m1 hf hj hM G /=.
    have e : j = N by lia.
    by rewrite e ltnn in G *; exists m1.
  case: ltnP => h; last first.
    have e : j = N by lia.
    by rewrite e in G; exists m1.
  set j2 := minn N (j + nb); have hj2 : (j < j2 <= N)%N by rewrite /j2; lia.
  have hp : (0 < j2 - j)%N by lia.
  have hq : (j + (j2 - j) <= M)%N by lia.
  have [Z' [-> HZ]] := MakeZP Q beta Z (ltnSn (j2 - j)) hp hq.
  rewrite /=; apply: IH; [lia|lia|by []|].
  case: G => h1 h2; split.
    move=> c hc; rewrite blockmultE // h1 //.
    have -> : 1%:M - Ymx M Q j (j2 - j) *m ctr (Zmx Z' j (j2 - j)) *m ctr (Ymx M Q j (j2 - j))
      = ctr (Pr M Q (zb beta) j (j2 - j)).
      by rewrite -(zpost_Pr HZ) ctrB ctr1 !ctrM ctrK mulmxA.
    rewrite mulmxA -ctrM; congr (ctr _ *m _).
    have ej : (j2 = j + (j2 - j))%N by lia.
    by rewrite [in RHS]ej Pr_cat add0n.
  by move=> i c hic; rewrite blockmult_fr ?h2 //; lia.
Qed.
Lemma linv_mx K j Q beta m m' : linv K j Q beta m m' ->
  mx M K m' = ctr (Pr M Q (zb beta) 0 j) *m mx M K m /\ framed M K m' m.
Proof.
  case=> h1 h2; split=> //; apply/matrixP => i c.
  have /matrixP/(_ i 0) := h1 c (ltn_ord c); rewrite !mxE => ->.
  by apply: eq_bigr => k _; rewrite !mxE.
Qed.
Lemma Q_LDivEqP nb N K Q beta Z0 m : (0 < nb)%N -> (N <= M)%N ->
  exists m', [/\ Q_LDivEq nb M N K Q beta Z0 m = Ok m',
    mx M K m' = ctr (Pr M Q (zb beta) 0 N) *m mx M K m & framed M K m' m].
Proof.
  move=> nbP hM; rewrite /Q_LDivEq; case: ifP => _.
    have G : linv K 0 Q beta m m by split=> // c hc; rewrite /= ctr1 mul1mx.
    have h0 : (N - 0 <= N)%N by lia.
    have [m' [-> /linv_mx [g1 g2]]] := BQLDivEqP Z0 nbP h0 (leq0n N) hM G.
    by exists m'.
  have /linv_mx [g1 g2] := NBQLDivEqP K Q beta m hM.
  by eexists; split; first by [].
Qed.

(** Q^-1 from the right, in terms of the adjoints of the rows. *)
Definition cjr m (r : nat) : 'cV[C]_M := \col_j (m r j)^*.
Definition rinv (N K j : nat) Q beta m m' : Prop :=
  (forall r, (r < K)%N -> cjr m' r = Pr M Q (zb beta) j (N - j) *m cjr m r) /\ framed K M m' m.
Definition cjx n p (X : 'M[C]_(n, p)) : 'M[C]_(n, p) := \matrix_(i, j) (X i j)^*.
Lemma cjxM n p q (X : 'M[C]_(n, p)) (Y : 'M[C]_(p, q)) : cjx (X *m Y) = cjx X *m cjx Y.
Proof.
  apply/matrixP => i j; rewrite !mxE rmorph_sum; apply: eq_bigr => k _.
  by rewrite !mxE rmorphM.
Qed.
Lemma cjx_Hm b Q k : cjx (Hm b (yv M (cjm Q) k)) = Hm b^* (yv M Q k).
Proof.
  have e (x : nat) : (yelt (cjm Q) x k)^* = yelt Q x k.
    rewrite /yelt /cjm; case: eqP => _; first exact: conjC1.
    by case: ifP => _; [exact: conjCK|exact: conjC0].
  apply/matrixP => i j; rewrite !mxE rmorphB rmorphM; congr (_ - _ * _).
    by case: eqP => _; [exact: conjC1|exact: conjC0].
  rewrite rmorph_sum; apply: eq_bigr => l _; rewrite !mxE rmorphM /= !e.
  by [].
Qed.
Lemma NBQRDivEqP N K Q beta m : (N <= M)%N -> rinv N K 0 Q beta m (NBQRDivEq M N K Q beta m).
Proof.
  move=> hM; rewrite /NBQRDivEq; set f := fun m j => _.
  apply: (fold_down_inv (I := fun j m' => rinv N K j Q beta m (trm m')) (f := f)).
    by split=> // r hr; rewrite subnn mul1mx.
  move=> j m1 hj [h1 h2].
  have ef : f m1 j = hlmult M j 0 K (fun r => (cjm Q) r j) (beta j) m1.
    by rewrite /f; case: eqP => // e; rewrite /hlmult e eqxx.
  rewrite ef; split.
    move=> r hr; have -> : cjr (trm (hlmult M j 0 K (fun r => cjm Q r j) (beta j) m1)) r
      = cjx (colv M (hlmult M j 0 K (fun r => cjm Q r j) (beta j) m1) r).
      by apply/matrixP => i l; rewrite !mxE.
    rewrite hlmultE ?cjxM ?cjx_Hm //; last lia.
    have -> : cjx (colv M m1 r) = cjr (trm m1) r by apply/matrixP => i l; rewrite !mxE.
    rewrite h1 //; have -> : (N - j = (N - j.+1).+1)%N by lia.
    by rewrite /= mulmxA.
  by move=> i c hic; rewrite -h2 // /trm hlmult_fr //; lia.
Qed.
Lemma BQRDivEqP nb fuel N K j2 Q beta Z m m1 : (0 < nb)%N -> (j2 <= fuel)%N -> (j2 <= N)%N -> (N <= M)%N ->
  rinv N K j2 Q beta m m1 ->
  exists m', BQRDivEq nb fuel M N K j2 Q beta Z m1 = Ok m' /\ rinv N K 0 Q beta m m'.
Proof.
  move=> nbP; elim: fuel j2 Z m1 => [|f IH] j2 Z m1 hf hj hM G /=.
    have e : j2 = 0%N by lia.
    by rewrite e /= in G *; exists m1.
  case: (posnP j2) => [e|h]; first by rewrite e in G; exists m1.
  set j1 := if (nb < j2)%N then _ else _.
  have hj1 : (j1 < j2)%N by rewrite /j1; case: ifP; lia.
  have hp : (0 < j2 - j1)%N by lia.
  have hq : (j1 + (j2 - j1) <= M)%N by lia.
  have [Z' [-> HZ]] := MakeZP Q beta Z (ltnSn (j2 - j1)) hp hq.
  rewrite /=; apply: IH; [lia|lia|by []|].
  case: G => h1 h2; split.
    move=> r hr; set B := blockmult _ _ _ _ _ _ _ _ _.
    have -> : cjr (cjm (trm B)) r = colv M B r.
      by apply/matrixP => i l; rewrite !mxE /cjm conjCK.
    rewrite blockmultE // (zpost_Pr HZ).
    have -> : colv M (cjm (trm m1)) r = cjr m1 r by apply/matrixP => i l; rewrite !mxE.
    rewrite h1 // mulmxA; congr (_ *m _).
    have ej : (N - j1 = (j2 - j1) + (N - j2))%N by lia.
    by rewrite [in RHS]ej Pr_cat; congr (_ *m Pr M Q (zb beta) _ _); lia.
  by move=> i c hic; rewrite -h2 // /cjm /trm blockmult_fr ?conjCK //; lia.
Qed.
Lemma rinv_mx N K Q beta m m' : rinv N K 0 Q beta m m' ->
  mx K M m' = mx K M m *m ctr (Pr M Q (zb beta) 0 N) /\ framed K M m' m.
Proof.
  case=> h1 h2; split=> //; apply/matrixP => r i.
  have /matrixP/(_ i 0) := h1 r (ltn_ord r); rewrite subn0 !mxE => e.
  rewrite -[LHS]conjCK e rmorph_sum; apply: eq_bigr => k _.
  by rewrite !mxE rmorphM /= conjCK mulrC.
Qed.
Lemma Q_RDivEqP nb N K Q beta Z0 m : (0 < nb)%N -> (N <= M)%N ->
  exists m', [/\ Q_RDivEq nb M N K Q beta Z0 m = Ok m',
    mx K M m' = mx K M m *m ctr (Pr M Q (zb beta) 0 N) & framed K M m' m].
Proof.
  move=> nbP hM; rewrite /Q_RDivEq; case: ifP => _.
    have G : rinv N K N Q beta m m by split=> // c hc; rewrite subnn mul1mx.
    have [m' [-> /rinv_mx [g1 g2]]] := BQRDivEqP Z0 nbP (leqnn N) (leqnn N) hM G.
    by exists m'.
  have /rinv_mx [g1 g2] := NBQRDivEqP K Q beta m hM.
  by eexists; split; first by [].
Qed.
End Q.

(** Division with the packed factors. *)
Section Div.
Variable C : numClosedFieldType.
Variables M N : nat.
Implicit Types (A Q m : fm C) (beta : fv C).

Definition Em : 'M[C]_(M, N) := \matrix_(i, j) (if (i == j :> nat) then 1 else 0).
Definition Qh Q beta : 'M[C]_(M, N) := Pr M Q (zb beta) 0 N *m Em.
Definition Rm Q : 'M[C]_N := mx N N (upper false Q).
Record isqr A Q beta : Prop := IsQR {
  iq_M : (N <= M)%N;
  iq_unit : unit_mx (Pr M Q (zb beta) 0 N);
  iq_fact : mx M N A = Qh Q beta *m Rm Q;
  iq_zero : forall k, (k < N)%N -> beta k = 0 -> forall r, (k < r < M)%N -> Q r k = 0;
  iq_real : forall k, (k < N)%N -> Q k k \is Num.real }.

Lemma Em_rows K m : (N <= M)%N -> ctr Em *m mx M K m = mx N K m.
Proof.
  move=> h; apply/matrixP => i c; rewrite !mxE; have hi : (i < M)%N by have := ltn_ord i; lia.
  rewrite (bigD1 (Ordinal hi)) //= big1 => [|k hk]; rewrite !mxE /=.
    by rewrite eqxx conjC1 mul1r addr0.
  case: eqP => [e|_]; last by rewrite conjC0 mul0r.
  by exfalso; move: hk; rewrite -val_eqE /= e eqxx.
Qed.
Lemma Em_cols K m : (N <= M)%N -> (forall i j, (i < K)%N -> (N <= j < M)%N -> m i j = 0) ->
  mx K M m = mx K N m *m ctr Em.
Proof.
  move=> h hz; apply/matrixP => i c; rewrite !mxE; case: (ltnP c N) => hc.
    rewrite (bigD1 (Ordinal hc)) //= big1 => [|k hk]; rewrite !mxE /=.
      by rewrite eqxx conjC1 mulr1 addr0.
    case: eqP => [e|_]; last by rewrite conjC0 mulr0.
    by exfalso; move: hk; rewrite -val_eqE /= -e eqxx.
  rewrite hz //; last by rewrite hc ltn_ord.
  rewrite big1 // => k _; rewrite !mxE; case: eqP => [e|_]; last by rewrite conjC0 mulr0.
  by exfalso; have := ltn_ord k; lia.
Qed.
Lemma EmE : (N <= M)%N -> ctr Em *m Em = 1%:M.
Proof.
  move=> h; have -> : Em = mx M N (fun i j => if i == j then 1 else 0) by apply/matrixP => i j; rewrite !mxE.
  rewrite -[X in ctr X](_ : Em = _) ?Em_rows //; apply/matrixP => i j; rewrite !mxE //.
  by rewrite -val_eqE /=; case: eqP.
Qed.
Lemma Qh_unit A Q beta : isqr A Q beta -> ctr (Qh Q beta) *m Qh Q beta = 1%:M.
Proof.
  case=> h U _ _ _; rewrite /Qh ctrM mulmxA -(mulmxA (ctr Em)) U mulmx1; exact: EmE.
Qed.

Lemma qinv_isqr A Q beta d d' : (N <= M)%N -> qinv M 0 N N A Q (zb beta) d d' -> isqr A Q beta.
Proof.
  move=> h H; split=> //.
  - by apply: Pr_unit; apply: (qi_unit H).
  - rewrite /Qh -mulmxA; apply/matrixP => i c; have hc := ltn_ord c.
    have e := qi_done H (hc : (0 <= c < 0 + N)%N).
    have -> : mx M N A i c = colv M A c i 0 by rewrite !mxE.
    rewrite -e !mxE; apply: eq_bigr => k _; congr (_ * _); rewrite !mxE.
    case: leqP => hk.
      have hk' : (k < N)%N by lia.
      rewrite (bigD1 (Ordinal hk')) //= big1 ?addr0 => [|l hl]; rewrite !mxE /=.
        rewrite eqxx mul1r /upper; case: eqP => [->|ne] //.
        by have -> : (k < c)%N by lia.
      case: eqP => [ee|_]; last by rewrite mul0r.
      by exfalso; move: hl; rewrite -val_eqE /= ee eqxx.
    rewrite big1 // => l _; rewrite !mxE; case: eqP => [ee|_]; last by rewrite mul0r.
    rewrite mul1r /upper; have -> : (l == c :> nat) = false by lia.
    by have -> : (l < c)%N = false by lia.
  - move=> k hk e r hr; have e' : zb beta k = 0 by rewrite /zb e conjC0.
    by apply: (qi_zero H (hk : (0 <= k < 0 + N)%N) e' hr).
  - by move=> k hk; apply: (qi_real H); lia.
Qed.

Lemma GetQ_Qh nb A Q beta Z0 : (0 < nb)%N -> isqr A Q beta ->
  exists Q', [/\ GetQFromQR nb M N Q beta Z0 = Ok Q', mx M N Q' = Qh Q beta &
    forall i c, ~~ ((i < M) && (c < N))%N -> Q' i c = Q i c].
Proof.
  move=> nbP [h U _ z0 _].
  have [Q' [-> [g1 g2]]] := GetQFromQRP nbP Z0 h z0.
  exists Q'; split=> //; last by move=> i c hic; apply: g2 => //; lia.
  apply/matrixP => i c; have /matrixP/(_ i 0) := g1 c (ltn_ord c); rewrite !mxE => ->.
  by apply: eq_bigr => k _; rewrite !mxE.
Qed.

Variables tb tb2 : nat.
Variables stA stB : stor.

Lemma QR_LDivP nb A Q beta Z0 K m : (0 < nb)%N -> (0 < tb)%N -> (0 < tb2)%N -> isqr A Q beta ->
  post (fun X => Rm Q *m mx N K X = ctr (Qh Q beta) *m mx M K m /\ framed M K X m)
       (zero_diag false N Q) (QR_LDiv nb tb tb2 stA stB M N K Q beta Z0 m).
Proof.
  move=> nbP tbP tb2P [h U _ _ _]; rewrite /QR_LDiv.
  have [m1 [-> e1 f1]] := Q_LDivEqP K Q beta Z0 m nbP h.
  apply: post_imp (TriLDivEqMUP tbP tb2P stA stB false N K Q m1) => // X [/mx_mulP h1 h2]; split.
    by rewrite h1 -Em_rows // e1 /Qh ctrM mulmxA.
  by move=> r c hrc; rewrite h2 ?f1 //; lia.
Qed.

Lemma QR_RDivP nb A Q beta Z0 K m : (0 < nb)%N -> (0 < tb)%N -> (0 < tb2)%N -> isqr A Q beta ->
  post (fun X => (exists X1, mx K M X = X1 *m ctr (Qh Q beta) /\ X1 *m Rm Q = mx K N m) /\ framed K M X m)
       (zero_diag false N Q) (QR_RDiv nb tb tb2 stA stB M N K Q beta Z0 m).
Proof.
  move=> nbP tbP tb2P [h U _ _ _]; rewrite /QR_RDiv; set x0 : fm C := fun i j => _.
  have := @C26_matrix_right _ tb tb2 true stA stB false N K Q x0 tbP tb2P.
  case: (TriRDivEqM _ _ _ _ _ _ _ _ _ _) => //= x [g1 g2].
  have [m1 [-> e1 f1]] := Q_RDivEqP K Q beta Z0 x nbP h.
  rewrite /=; split.
    exists (mx K N x); split.
      rewrite e1 /Qh ctrM mulmxA -Em_cols // => i j hi hj.
      by rewrite g2 ?/x0 ?hi ?hj //; lia.
    apply/mx_mulP => c i hc hi; rewrite g1 // /x0.
    by have -> : ((c < K) && (N <= i < M))%N = false by lia.
  move=> r c hrc; rewrite f1 // g2 ?/x0; last lia.
  case: ifP => // hc; exfalso; lia.
Qed.

Lemma QR_InverseP nb A Q beta Z0 : (0 < nb)%N -> (0 < tb)%N -> isqr A Q beta ->
  post (fun X => exists2 Ri, Rm Q *m Ri = 1%:M & mx N M X = Ri *m ctr (Qh Q beta))
       (zero_diag false N Q) (QR_Inverse nb tb M N Q beta Z0).
Proof.
  move=> nbP tbP [h U _ _ _]; rewrite /QR_Inverse; set x0 : fm C := fun i j => _.
  have eu i j : (i < N)%N -> (j < N)%N -> upper false x0 i j = upper false Q i j.
    move=> hi hj; rewrite /upper /x0; case: eqP => [->|ne]; first by rewrite leqnn hj.
    by case: ifP => // hij; rewrite (ltnW hij) hj.
  have := @C26_inverse _ tb false N x0 tbP.
  case: (TriInverse _ _ _ _) => [x|e|] //=; last first.
    by case=> -> [_ [i [hi hz]]]; split=> //; split=> //; exists i; split=> //; rewrite /x0 leqnn hi in hz.
  case=> g1 g2; have [m1 [-> e1 f1]] := Q_RDivEqP N Q beta Z0 x nbP h.
  rewrite /=; exists (mx N N x).
    apply/matrixP => i j; rewrite !mxE; have [<- _] := g1 i j (ltn_ord i) (ltn_ord j).
    apply: eq_bigr => k _; rewrite !mxE eu //; congr (_ * _).
    rewrite /upper; case: ltngtP => [//|hk|/val_inj -> //].
    by rewrite g2 /x0; [have -> : (k <= j)%N = false by lia|lia].
  rewrite e1 /Qh ctrM mulmxA -Em_cols // => i j hi hj.
  rewrite g2 /x0; last lia.
  by have -> : (i <= j < N)%N = false by lia.
Qed.

Lemma QR_InverseATAP Q : (0 < tb)%N ->
  post (fun X => exists2 Ri, Rm Q *m Ri = 1%:M & mx N N X = Ri *m ctr Ri)
       (zero_diag false N Q) (QR_InverseATA tb N Q).
Proof.
  move=> tbP; rewrite /QR_InverseATA; have := @C26_inverse _ tb false N Q tbP.
  case: (TriInverse _ _ _ _) => [x|e|] //= [g1 g2].
  exists (mx N N (upper false x)).
    apply/matrixP => i j; rewrite !mxE; have [<- _] := g1 i j (ltn_ord i) (ltn_ord j).
    by apply: eq_bigr => k _; rewrite !mxE.
  apply/matrixP => i j; rewrite !mxE big_mkord; apply: eq_bigr => k _; by rewrite !mxE.
Qed.

Lemma det_Rm Q : \det (Rm Q) = \prod_(0 <= i < N) Q i i.
Proof.
  rewrite -det_tr det_trig; last by apply/is_trig_mxP => i j h; rewrite !mxE /upper gtn_eqF // ltnNge (ltnW h).
  by rewrite big_mkord; apply: eq_bigr => i _; rewrite !mxE /upper eqxx.
Qed.
Lemma zero_diag_det Q e : zero_diag false N Q e -> e = Singular /\ \det (Rm Q) = 0.
Proof.
  case=> -> [_ [i [hi z]]]; split=> //; rewrite det_Rm big_mkord.
  by apply/eqP/prodf_eq0; exists (Ordinal hi) => //=; rewrite z.
Qed.
End Div.

Section Lsq.
Variable C : numClosedFieldType.
Lemma nsq_ge0 n (u : 'cV[C]_n) : 0 <= nsq u.
Proof. by apply: sumr_ge0 => i _; rewrite -normCK exprn_ge0. Qed.
Lemma pyth n (u v : 'cV[C]_n) : ctr u *m v = 0 -> nsq (u + v) = nsq u + nsq v.
Proof.
  move=> h; have h2 : ctr v *m u = 0 by rewrite -[ctr v *m u]ctrK ctrM ctrK h; apply/matrixP => i j; rewrite !mxE conjC0.
  have e : ctr (u + v) *m (u + v) = ctr u *m u + ctr v *m v.
    have -> : ctr (u + v) = ctr u + ctr v by apply/matrixP => i j; rewrite !mxE rmorphD.
    by rewrite mulmxDl !mulmxDr h h2 addr0 add0r.
  by move/matrixP/(_ 0 0): e; rewrite !nsqE !mxE eqxx !mulr1n.
Qed.
Lemma lsq M N (A : 'M[C]_(M, N)) (x y : 'cV[C]_N) b :
  ctr A *m (A *m x - b) = 0 -> nsq (A *m x - b) <= nsq (A *m y - b).
Proof.
  move=> h; have -> : A *m y - b = (A *m x - b) + A *m (y - x).
    by rewrite mulmxBr [RHS]addrC addrA subrK.
  rewrite [X in _ <= X]pyth; first by rewrite ler_addl nsq_ge0.
  have hz : ctr (A *m x - b) *m A = 0.
    by rewrite -[LHS]ctrK ctrM ctrK h; apply/matrixP => i j; rewrite !mxE conjC0.
  by rewrite mulmxA hz mul0mx.
Qed.
Lemma minnorm n (x y : 'rV[C]_n) : (y - x) *m ctr x = 0 -> nsq (ctr x) <= nsq (ctr y).
Proof.
  move=> h; have -> : ctr y = ctr x + ctr (y - x) by rewrite ctrB addrC subrK.
  rewrite [X in _ <= X]pyth; first by rewrite ler_addl nsq_ge0.
  rewrite -ctrM h.
  by apply/matrixP => i j; rewrite !mxE conjC0.
Qed.
End Lsq.
