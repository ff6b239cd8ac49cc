(** Proofs about QRP.v: the loose block version. *)
From Coq Require Import Ring Field.
From Verif Require Import Base FMat TriSolve RowPerm RingTac Cplx Chol QR QRProofs QRP QRPProofs QRPLoop QRPStrict QRPPerm.
From mathcomp Require Import all_ssreflect all_fingroup all_algebra zify.
Set Implicit Arguments. Unset Strict Implicit. Unset Printing Implicit Defensive.
Import GRing.Theory Num.Theory Order.Theory.

Section PermMore.
Implicit Types P : nat -> nat.
Lemma disj_sub P j j' J : j <= j' -> disj P j J -> disj P j' J.
Proof. by move=> h [D1 D2]; split=> [x hx|x y hx hy]; [apply: D1; lia|apply: D2; lia]. Qed.
Lemma disj_ext P P' j J : (forall x, j <= x < J -> P x = P' x) -> disj P j J -> disj P' j J.
Proof.
  move=> h [D1 D2]; split=> [x hx|x y hx hy]; first by rewrite -h //; apply: D1.
  by rewrite -!h //; apply: D2.
Qed.
Lemma disj_badP P j j2 J : j < j2 < J -> disj P j J -> disj (badP j j2 P) j.+1 J.
Proof.
  move=> hj [D1 D2].
  have v x : j < x < J -> badP j j2 P x = if (x == j2) && (j2 < P j) then P j else P x.
    move=> hx; case: eqP => [->|ne]; first by rewrite badP_j2 //; lia.
    by rewrite badP_fr //; lia.
  have P1 := D1 j ltac:(lia).
  split=> [x hx|x y hx hy ne]; rewrite !v //.
    by case: ifP => h; [right; lia|apply: D1; lia].
  case: (eqVneq x j2) => /= hx2; case: (eqVneq y j2) => /= hy2; try lia.
  - by case: ifP => h h1; apply: D2 => //; lia.
  - by case: ifP => h h1; apply: D2 => //; lia.
  - by move=> h1; apply: D2 => //; lia.
Qed.
Lemma disj_inv P j J c : disj P j J -> psig P j (J - j) (psig P j (J - j) c) = c.
Proof.
  move: {2}(J - j) (erefl (J - j)) => n; elim: n j c => [|n IH] j c en D; rewrite en //.
  have [D1 D2] := D; rewrite !psig_head.
  have e : J - j.+1 = n by lia.
  have rr := IH j.+1 _ e (disj_sub (leqnSn j) D); rewrite e in rr.
  rewrite tsw_comm; [by rewrite tswK rr|exact: psig_inj|..].
    by apply: psig_fixpt => x hx; have := D1 x; lia.
  have [->|h] := D1 j ltac:(lia); first by apply: psig_fixpt => x hx; have := D1 x; lia.
  apply: psig_fixpt => x hx; have [->|h1] := D1 x ltac:(lia); [by left|right; split; first lia].
  by apply: D2 => //; lia.
Qed.
End PermMore.

Local Open Scope ring_scope.
Section Blk.
Variable C : numClosedFieldType.
Variables (under : C -> bool).
Variables (M : nat).
Implicit Types (A X Z : fm C) (b : fv C) (P : nat -> nat) (cn : nat -> option C).

Lemma qinv_trail2 o n e1 e A0 A A' z (d0 d : C) : (o + n <= e1)%N -> (e1 <= e)%N -> qinv M o n e1 A0 A z d0 d ->
  (forall c, (e1 <= c < e)%N -> colv M A' c = ctr (Pr M A z o n) *m colv M A c) ->
  (forall i c, ~~ ((o <= i < M) && (e1 <= c < e))%N -> A' i c = A i c) ->
  qinv M o n e A0 A' z d0 d.
Proof.
  move=> he1 he [u f t fr r z0 D] hc hf.
  have hfr i c : (c < e1)%N -> A' i c = A i c by move=> h; apply: hf; lia.
  have pe : Pr M A' z o n = Pr M A z o n by apply: Pr_ext => // i k hk _; apply: hfr; lia.
  have U := Pr_unit u.
  split.
  - by move=> k hk; rewrite (@yv_ext _ M A' A); [apply: u|move=> i _; apply: hfr; lia].
  - move=> c h; rewrite pe -f //; congr (_ *m _); apply: (@rcol_fr _ _ _ _ _ c.+1) => // i _; apply: hfr; lia.
  - move=> c h; rewrite pe; case: (ltnP c e1) => hce.
      by rewrite -t; [congr (_ *m _); apply/matrixP => i j; rewrite !mxE hfr|lia].
    rewrite hc ?mulmxA ?(unit_mxC U) ?mul1mx; last lia.
    by apply/matrixP => i j; rewrite !mxE; apply: fr; lia.
  - by move=> i c h; rewrite hf; [apply: fr; lia|lia].
  - by move=> c h; rewrite hfr; [apply: r|lia].
  - by move=> k i hk h1 h2; rewrite hfr; [apply: z0|lia].
  - by rewrite pe.
Qed.

Lemma block_trail2 o n e1 e A0 A Z (d0 d : C) : (o + n <= e1)%N -> (e1 <= e)%N -> (o + n <= M)%N ->
  qinv M o n e1 A0 A (fun k => Z k k) d0 d -> zok M A Z o n ->
  qinv M o n e A0 (blockmult true M o n e1 e A Z A) (fun k => Z k k) d0 d.
Proof.
  move=> h1 h2 hn Q hz; apply: (qinv_trail2 h1 h2 Q).
  - move=> c hc; rewrite blockmultE // -hz; congr (_ *m _).
    by rewrite ctrB ctr1 !ctrM ctrK mulmxA.
  - by move=> i c h; apply: blockmult_fr.
Qed.

Lemma augment_fr o j (b : C) A Z k l : l != j -> augment M o j b A Z k l = Z k l.
Proof. by move=> h; rewrite /augment; case: ifP => _; rewrite (negbTE h). Qed.
Lemma augment_jj o j (b : C) A Z : (o <= j)%N -> augment M o j b A Z j j = b.
Proof. by move=> h; rewrite /augment; case: eqP => [->|_]; rewrite eqxx ?leqnn ?h. Qed.

Lemma augmentP o n (b : C) A Z : (o + n < M)%N -> zok M A Z o n -> zok M A (augment M o (o + n) b A Z) o n.+1.
Proof.
  move=> hM hz; set j := (o + n)%N; set Z' := augment _ _ _ _ _ _.
  have e1 k l : l != j -> Z' k l = Z k l by exact: augment_fr.
  have ejj : Z' j j = b by apply: augment_jj; rewrite /j; lia.
  have z1 : zok M A Z' o n.
    by apply: (zok_ext _ _ hz) => // k l hk hl; rewrite e1 //; rewrite /j; lia.
  rewrite -addn1; apply: zok_join => //; first exact: zok1.
  apply/matrixP => k l; rewrite !ord1 !mxE big_ord1 !mxE addn0 -/j /zelt leqnn ejj.
  have hk := ltn_ord k.
  have -> : Z' (o + k)%N j = - b * \sum_(o <= t < o + n) zelt Z (o + k) t * (\sum_(i < M) (yelt A i t)^* * yelt A i j).
    rewrite /Z' /augment; case: eqP => [->|_]; first by rewrite eqxx ifT ?oppr0 ?mul0r //; rewrite /j; lia.
    rewrite eqxx ifF; last by rewrite /j; lia.
    rewrite ifT; last by rewrite /j; lia. congr (_ * _); apply: eq_big_nat => t ht; congr (_ * _).
    have := @WE _ M A o n 1 t j; rewrite addn1 !addnS big_nat1 -/j => <-; [|lia|lia|by rewrite /j; lia].
    by rewrite /yelt eqxx mulr1 addrC.
  rewrite mulNr mulrC; congr (- (_ * _)); rewrite sum_shift; apply: eq_bigr => t _; rewrite !mxE; congr (_ * _).
    by rewrite /zelt e1 //; rewrite /j; have := ltn_ord t; lia.
  by apply: eq_bigr => i _; rewrite !mxE addn0.
Qed.
End Blk.

Section Loose.
Variable C : numClosedFieldType.
Variables (under : C -> bool) (eps : C) (nb : nat).
Variables (M N : nat) (A0 : fm C) (b0 : fv C) (P0 : nat -> nat) (d0 : C).
Hypothesis NM : (N <= M)%N.
Implicit Types (A X Z : fm C) (b : fv C) (P : nat -> nat) (cn : nat -> option C) (s : pst C) (thr rth : option C).

(** j columns are reduced, J exchanges have been done; det does not have their sign. *)
Record pin (j J : nat) s : Prop := Pin {
  n_q : qinv M 0 j N (pcols M (qP s) J A0) (qA s) (fun k => (qb s k)^*) d0 (qd s);
  n_P : forall k, (k < J)%N -> (k <= qP s k < N)%N;
  n_b : forall k, (N <= k)%N -> qb s k = b0 k;
  n_fP : forall k, (N <= k)%N -> qP s k = P0 k }.

Lemma pin_swap j J p s A' cn r : (j <= J)%N -> (J <= p < N)%N -> pin j J s ->
  (forall i c, A' i c = swapAc M J p (qA s) i c) -> pin j J.+1 (PS A' (qb s) (updP (qP s) J p) (qd s) cn r).
Proof using NM.
  move=> hj hp [Q HP fb fP] eA; split=> //=; last first.
  - by move=> k hk; rewrite /updP ifF ?fP //; lia.
  - by move=> k hk; rewrite /updP; case: eqP => [->|ne]; [lia|apply: HP; lia].
  apply: (@qinv_swap _ M 0 j N (pcols M (qP s) J A0) (qA s) (fun k => (qb s k)^*) d0 (qd s) J p _ _ _ _ _ 1) => //.
  - by rewrite add0n; lia.
  - by have -> : (J < N)%N = (p < N)%N by lia.
  - move=> i c; rewrite pcolsS /updP eqxx /swapAc; case: ifP => _;
    apply: pcols_ext => k hk; rewrite ifF //; lia.
  - by rewrite mul1r.
  - by rewrite mul1r.
Qed.
Lemma swap_id a A i c : A i c = swapAc M a a A i c.
Proof using. by rewrite /swapAc tsw_same if_same. Qed.

(** moveLowColsToEnd *)
Lemma lowscanP cn thr lo j3 : (lo <= j3)%N ->
  (lo <= lowscan cn thr lo j3 <= j3)%N /\ (lowscan cn thr lo j3 = lo \/ ~~ nlt (cn (lowscan cn thr lo j3)) thr).
Proof using. clear NM.
  elim: j3 => [|j IH] h /=; first by split; [lia|left; lia].
  case: (ltnP lo j.+1) => h1; last by split; [lia|left; lia].
  case: ifP => h2; last by rewrite h2; split; [lia|right].
  have [h3 h4] := IH ltac:(lia); split=> //; lia.
Qed.
Lemma lowscan_small cn thr lo j3 : (j3 < lo)%N -> lowscan cn thr lo j3 = j3.
Proof using. clear NM. by case: j3 => [|j] h //=; rewrite ifF //; lia. Qed.
Lemma lowscan2P cn thr i j3 : (i < j3)%N -> ~~ nlt (cn i) thr ->
  (i <= lowscan2 cn thr j3 < j3)%N /\ ~~ nlt (cn (lowscan2 cn thr j3)) thr.
Proof using. clear NM.
  move=> h hi; elim: j3 h => // j IH h /=; case: ifP => h2; last by rewrite h2; split; [lia|].
  have [h3 h4] : (i <= lowscan2 cn thr j < j)%N /\ ~~ nlt (cn (lowscan2 cn thr j)) thr.
    apply: IH; rewrite ltn_neqAle -ltnS h andbT; apply/eqP => e; move: hi; by rewrite e h2.
  by split=> //; lia.
Qed.

Section ML.
Variables (thr : option C) (j lo : nat) (s0 : pst C).
Record mlinv (i j2 j3 : nat) s : Prop := ML {
  ml_i : (lo <= i <= j2)%N;
  ml_j : (j2 <= j3.+1 <= N)%N;
  ml_p : pin j i s;
  ml_g : forall k, (lo <= k < i)%N -> ~~ nlt (qc s k) thr;
  ml_3 : (i < j2)%N -> ~~ nlt (qc s j3) thr;
  ml_d : forall k, (lo <= k < i)%N -> qP s k = k \/ (j3 < qP s k)%N;
  ml_u : forall k l, (lo <= k < i)%N -> (lo <= l < i)%N -> k <> l -> (j3 < qP s k)%N -> qP s k <> qP s l;
  ml_c : forall k, (k < lo)%N -> qc s k = qc s0 k }.

Lemma MoveLowLoopP fuel i j2 j3 s : (j <= lo)%N -> (j2 - i <= fuel)%N -> mlinv i j2 j3 s ->
  exists s' j2' j3', [/\ MoveLowLoop fuel thr M i j2 j3 s = (s', j2', j3'), mlinv j2' j2' j3' s',
     (j3' <= j3)%N, (i <= j2')%N & ((i < j2) -> (i < j2'))%N].
Proof using NM.
  move=> hj; elim: fuel i j2 j3 s => [|f IH] i j2 j3 s hf I.
    exists s, j2, j3; split=> //=; last by case: I; lia.
    have e : i = j2 by case: I; lia.
    by rewrite -{1}e.
  rewrite /=; case: (ltnP i j2) => hi; last first.
    by exists s, j2, j3; split=> //; [have e : i = j2 by case: I; lia|case: I; lia]; rewrite -{1}e.
  have [h1 h2 hp hg h3 hd hu hc] := I; have g3 := h3 hi.
  case: ifP => hl; last first.
    set s1 := PS _ _ _ _ _ _; have I1 : mlinv i.+1 j2 j3 s1.
      split=> //=; first lia.
      - by apply: pin_swap => //; [lia|lia|exact: swap_id].
      - by move=> k hk; case: (eqVneq k i) => [->|ne]; [rewrite hl|apply: hg; lia].
      - by move=> k hk; rewrite /updP; case: eqP => [->|ne]; [left|apply: hd; lia].
      - move=> k l hk hl'; rewrite /updP; case: eqP => [->|nk] ne; first lia.
        case: eqP => [e|nl] h; last by apply: hu => //; lia.
        lia.
    have [s' [j2' [j3' [e1 e2 e3 e4 e5]]]] := IH i.+1 j2 j3 s1 ltac:(lia) I1.
    by exists s', j2', j3'; split=> //; lia.
  have i3 : i <> j3 by move=> e; move: g3; rewrite -e hl.
  set s1 := PS _ _ _ _ _ _.
  have gi : ~~ nlt (qc s1 i) thr by rewrite /= /swapcn /tsw eqxx.
  have [h4 h5] := @lowscan2P (qc s1) thr i j3 ltac:(lia) gi.
  set j3n := lowscan2 _ _ _ in h4 h5 *; set j2n := if _ then _ else _.
  have hj2n : (i < j2n <= j3n.+1)%N /\ (j2n <= j2)%N by rewrite /j2n; case: ifP; lia.
  have I1 : mlinv i.+1 j2n j3n s1.
    split=> //=; [lia|lia|..].
    - by apply: pin_swap => //; lia.
    - move=> k hk; case: (eqVneq k i) => [->//|ne]; rewrite /swapcn tsw_out; [apply: hg; lia|lia|lia].
    - by move=> k hk; rewrite /updP; case: eqP => [->|ne]; [right; lia|have := hd k; lia].
    - move=> k l hk hl'; rewrite /updP; case: eqP => [->|nk] ne.
        by case: eqP => [|nl] h; [lia|have := hd l; lia].
      case: eqP => [e|nl] h; first by have := hd k; lia.
      have [e|h'] := hd k ltac:(lia); last by apply: hu => //; lia.
      by have [e2|e2] := hd l ltac:(lia); lia.
    - by move=> k hk; rewrite /swapcn tsw_out ?hc //; lia.
  have [s' [j2' [j3' [e1 e2 e3 e4 e5]]]] := IH i.+1 j2n j3n s1 ltac:(lia) I1.
  by exists s', j2', j3'; split=> //; lia.
Qed.
End ML.

Lemma MoveLowP thr j lo j2 j3 s : (j <= lo)%N -> (0 < j3)%N -> (lo <= j2 <= j3)%N -> (j3 <= N)%N -> pin j lo s ->
  exists s' j2' j3', [/\ MoveLow thr M lo j2 j3 s = (s', j2', j3'), pin j j2' s' /\ disj (qP s') lo j2',
     forall k, (lo <= k < j2')%N -> ~~ nlt (qc s' k) thr,
     forall k, (k < lo)%N -> qc s' k = qc s k &
     [/\ (lo <= j2' <= j3')%N, (j3' <= j3)%N & ((lo < j2) -> (lo < j2') || (j2' == lo) && (j3' == lo))%N]].
Proof using NM.
  move=> hj h0 h2 h3 p; rewrite /MoveLow; set k3 := lowscan _ _ _ _.
  have D0 P : disj P lo lo by split; lia.
  have fin j2n s' j2' j3' : mlinv thr j lo s j2' j2' j3' s' -> (j3' < j3)%N -> (lo <= j2')%N -> ((lo < j2n) -> (lo < j2'))%N -> ((lo < j2) -> (lo < j2n))%N ->
     [/\ (s', j2', j3'.+1) = (s', j2', j3'.+1), pin j j2' s' /\ disj (qP s') lo j2',
     forall k, (lo <= k < j2')%N -> ~~ nlt (qc s' k) thr,
     forall k, (k < lo)%N -> qc s' k = qc s k &
     [/\ (lo <= j2' <= j3'.+1)%N, (j3'.+1 <= j3)%N & ((lo < j2) -> (lo < j2') || (j2' == lo) && (j3'.+1 == lo))%N]].
    case=> i1 i2 i3 i4 i5 i6 i7 i8 k1 k2 k3' k4; split=> //; last by split=> //; lia.
    split=> //; split=> [x hx|x y hx hy ne hh]; first by have := i6 x hx; lia.
    by apply: i7 => //; have := i6 x hx; lia.
  case: (ltnP lo j3) => h; last first.
    have e : k3 = j3.-1 by apply: lowscan_small; lia.
    rewrite e ifF; last lia. rewrite ifT; last lia.
    have -> : (j3.-1.+1 - lo = 0)%N by lia.
    exists s, j3.-1.+1, j3.-1.+1; apply: (fin lo) => //; try lia.
    have e2 : j3.-1.+1 = lo by lia.
    by rewrite e2; split=> //; lia.
  have [k1 k2] := @lowscanP (qc s) thr lo j3.-1 ltac:(lia); rewrite -/k3 in k1 k2.
  case: eqP => [e|ne].
    case: ifP => hl.
      by exists s, lo, k3; split=> //; [move=> k; lia|split=> //; lia].
    set s1 := PS _ _ _ _ _ _; exists s1, lo.+1, lo.+1; split=> //.
    - split; first by apply: pin_swap => //; [lia|exact: swap_id].
      split=> [x hx|x y hx hy ne]; last lia.
      have ex : x = lo by lia.
      by left; rewrite /= /updP ex eqxx.
    - move=> k hk; have -> : k = lo by lia.
      by rewrite /= hl.
    - by split; lia.
  set j2n := if _ then _ else _.
  have hj2n : (lo <= j2n <= k3.+1)%N /\ ((lo < j2) -> (lo < j2n))%N by rewrite /j2n; case: ifP; lia.
  have I : mlinv thr j lo s lo j2n k3 s.
    by split=> //; try lia; move=> _; case: k2 => // e; case: ne.
  have [s' [j2' [j3' [-> e2 e3 e4 e5]]]] := @MoveLowLoopP thr j lo s (j2n - lo) lo j2n k3 s hj ltac:(lia) I.
  by exists s', j2', j3'.+1; apply: (fin j2n) => //; lia.
Qed.

(** Inside a block: Ab is the matrix at its beginning, with the same columns exchanged. *)
Record blk (j1 J j : nat) (d1 : C) s Z Ab : Prop := Blk {
  k_o : qinv M 0 j1 N (pcols M (qP s) J A0) Ab (fun k => (qb s k)^*) d0 d1;
  k_i : qinv M j1 (j - j1) J Ab (qA s) (fun k => Z k k) d1 (qd s);
  k_z : zok M (qA s) Z j1 (j - j1);
  k_Z : forall k, (j1 <= k < j)%N -> Z k k = (qb s k)^*;
  k_P : forall k, (k < J)%N -> (k <= qP s k < N)%N;
  k_b : forall k, (N <= k)%N -> qb s k = b0 k;
  k_fP : forall k, (N <= k)%N -> qP s k = P0 k }.

Lemma lbstepP sc j1 J j j2 d1 s Z Ab : (j1 <= j < J)%N -> (J <= N)%N -> blk j1 J j d1 s Z Ab ->
  let r := lbstep under sc M j1 j j2 J s Z in
  blk j1 J j.+1 d1 r.1 r.2 Ab /\ qP r.1 = qP s.
Proof using NM.
  move=> hj hJ [ko ki kz kZ kP kb kfP]; rewrite /lbstep; case E : hreflectM => [[A' b] d'] /=; split=> //.
  have Q : qinv M j 1 J (qA s) A' (fun k => augment M j1 j b^* A' Z k k) (qd s) d'.
    by apply: (hreflectMP _ _ E); [lia|lia|rewrite augment_jj //; lia].
  have ej : (j1 + (j - j1) = j)%N by lia.
  have en : (j.+1 - j1 = (j - j1).+1)%N by lia.
  have fr k l : l != j -> augment M j1 j b^* A' Z k l = Z k l by exact: augment_fr.
  split=> //=.
  - apply: (@qinv_ext _ M 0 j1 N _ Ab (fun k => (qb s k)^*)) ko => k hk.
    by rewrite /updv ifF //; lia.
  - rewrite en -addn1; apply: (@qinv_join _ M j1 (j - j1) 1 J Ab (qA s) A' (fun k => Z k k)) ki _; first lia.
      by move=> k hk; rewrite fr //; lia.
    by rewrite ej.
  - rewrite en -[X in augment M j1 X]ej; apply: augmentP; first lia.
    apply: (zok_ext _ _ kz) => // i k hk hi; symmetry; apply: (qi_frame Q); lia.
  - move=> k hk; rewrite /updv; case: (eqVneq k j) => [->|ne]; first by rewrite augment_jj //; lia.
    by rewrite fr // kZ //; lia.
  - by move=> k hk; rewrite /updv ifF ?kb //; lia.
Qed.

Lemma badcolP j1 J j j2 d1 s Z Ab : (j1 <= j)%N -> (j < j2 < J)%N -> (J <= N)%N -> disj (qP s) j J ->
  blk j1 J j d1 s Z Ab ->
  exists Ab', blk j1 J j d1 (badcol M j j2 s) Z Ab' /\ disj (qP (badcol M j j2 s)) j.+1 J.
Proof using NM.
  move=> h1 hj hJ D [ko ki kz kZ kP kb kfP].
  have eP : qP (badcol M j j2 s) = badP j j2 (qP s).
    by rewrite /badcol /badP /=; case: ifP => _; case: ifP => _.
  have eb : qb (badcol M j j2 s) = qb s by rewrite /badcol /=; case: ifP => _; case: ifP => _.
  have ed : qd (badcol M j j2 s) = qd s by rewrite /badcol /=; case: ifP => _; case: ifP => _.
  have Pj := kP j ltac:(lia); have Pj2 := kP j2 ltac:(lia).
  pose two := ((j2 < qP s j2) && (j2 < qP s j))%N.
  pose sw X := if two then swapAc M (qP s j2) (qP s j) (swapAc M j j2 X) else swapAc M j j2 X.
  have eA : qA (badcol M j j2 s) = sw (qA s).
    by rewrite /badcol /sw /two /=; case: (ltnP j2 (qP s j2)) => _ //; case: ifP => _.
  have [D1 D2] := D.
  have geJ x : (x = j \/ x = j2) -> (j2 < qP s x)%N -> (J <= qP s x)%N.
    by move=> hx h; have := D1 x ltac:(lia); lia.
  have Qsw o n e X A z (e0 e1 : C) : (o + n <= j)%N -> (J <= e)%N -> (e = J \/ e = N) ->
      qinv M o n e X A z e0 e1 -> qinv M o n e (sw X) (sw A) z e0 e1.
    move=> k1 k2 k3 Q.
    have Q1 : qinv M o n e (swapAc M j j2 X) (swapAc M j j2 A) z e0 e1.
      apply: (@qinv_swap _ M o n e X A z e0 e1 j j2 _ _ _ _ _ 1) => //; rewrite ?mul1r //; first lia.
      by have -> : (j < e)%N = (j2 < e)%N by lia.
    rewrite /sw; case E2 : two => //; move/andP: E2 => [t1 t2].
    have g1 := geJ j2 (or_intror erefl) t1; have g2 := geJ j (or_introl erefl) t2.
    apply: (@qinv_swap _ M o n e _ _ z e0 e1 (qP s j2) (qP s j) _ _ _ _ _ 1) Q1 => //; rewrite ?mul1r //; try lia.
  exists (sw Ab); split; last by rewrite eP; apply: disj_badP.
  split; rewrite ?eP ?eb ?ed ?eA //.
  - apply: (@qinv_extA _ M 0 j1 N (sw (pcols M (qP s) J A0))); last by apply: Qsw => //; right.
    move=> i c; rewrite /pcols.
    have -> : psig (badP j j2 (qP s)) 0 J c = psig (qP s) 0 J (badcols j j2 (qP s) c).
      have eJ : (J = j + (J - j))%N by lia.
      rewrite {1 2}eJ !psig_cat !add0n (badP_psig _ hj D); apply: psig_ext => x hx.
      by apply: badP_fr; lia.
    rewrite /sw /badcols -/two; case Et : two; rewrite /swapAc; by case: (i < M)%N.
  - by apply: Qsw => //; [lia|left].
  - apply: (zok_ext _ _ kz) => // i k hk hi; rewrite /sw.
    have t1 : tsw j j2 k = k by apply: tsw_out; lia.
    have t2 : tsw (qP s j2) (qP s j) k = k by apply: tsw_out; lia.
    by case E2 : two; rewrite /swapAc ?t2 ?t1 ?if_same.
  - move=> k hk; case: (eqVneq k j) => [->|nk]; first by rewrite badP_j; [case: ifP; lia|lia].
    case: (eqVneq k j2) => [->|nk2]; first by rewrite badP_j2; [case: ifP; lia|lia].
    by rewrite badP_fr; [apply: kP|lia|lia].
  - by move=> k hk; rewrite badP_fr; [apply: kfP|lia|lia].
Qed.

Lemma LBinP sc rth fuel j1 J j j2 d1 s Z Ab : (j1 <= j <= j2)%N -> (j2 <= J <= N)%N -> (j2 - j < fuel)%N -> disj (qP s) j J ->
  blk j1 J j d1 s Z Ab ->
  exists s' Z' j2' Ab', [/\ LBin under fuel sc rth M j1 j j2 J s Z = Ok (s', Z', j2'), (j <= j2' <= J)%N,
     blk j1 J j2' d1 s' Z' Ab' & disj (qP s') j2' J].
Proof using NM.
  elim: fuel j j2 s Z Ab => // f IH j j2 s Z Ab hj hJ hf D B /=.
  case: (ltnP j j2) => hjj; last first.
    have e : j = j2 by lia.
    by rewrite -e; exists s, Z, j, Ab; split=> //; lia.
  case: ifP => hl.
    case: eqP => [e|ne].
      by rewrite -e; exists s, Z, j, Ab; split=> //; lia.
    have [Ab' [B' D']] := badcolP (j1 := j1) (J := J) (j := j) (j2 := j2.-1) ltac:(lia) ltac:(lia) ltac:(lia) D B.
    have := lbstepP sc j2.-1 (j1 := j1) (J := J) (j := j) ltac:(lia) ltac:(lia) B'.
    case E : lbstep => [s1 Z1] /= [B1 eP].
    have [s' [Z' [j2' [Ab2 [e1 e2 e3 e4]]]]] := IH j.+1 j2.-1 s1 Z1 Ab' ltac:(lia) ltac:(lia) ltac:(lia) ltac:(by rewrite eP) B1.
    by exists s', Z', j2', Ab2; split=> //; lia.
  have := lbstepP sc j2 (j1 := j1) (J := J) (j := j) ltac:(lia) ltac:(lia) B.
  case E : lbstep => [s1 Z1] /= [B1 eP].
  have D1 : disj (qP s1) j.+1 J by rewrite eP; apply: disj_sub D.
  have [s' [Z' [j2' [Ab2 [e1 e2 e3 e4]]]]] := IH j.+1 j2 s1 Z1 Ab ltac:(lia) ltac:(lia) ltac:(lia) D1 B1.
  by exists s', Z', j2', Ab2; split=> //; lia.
Qed.

Lemma lbtrailP sc j1 J j2 d1 s Z Ab : (j1 < j2 <= J)%N -> (J <= N)%N -> blk j1 J j2 d1 s Z Ab ->
  pin j2 J (lbtrail sc M N j1 j2 J s Z) /\ qP (lbtrail sc M N j1 j2 J s Z) = qP s.
Proof using NM.
  move=> hj hJ [ko ki kz kZ kP kb kfP]; rewrite /lbtrail ifT; last lia.
  split=> //; split=> //=.
  have ej : (j1 + (j2 - j1) = j2)%N by lia.
  have Q := block_trail2 (M := M) (o := j1) (n := j2 - j1) (e := N) (e1 := J) ltac:(lia) ltac:(lia) ltac:(lia) ki kz.
  rewrite -[X in qinv M 0 X]ej; apply: (@qinv_join _ M 0 j1 (j2 - j1) N _ Ab _ (fun k => (qb s k)^*)) ko _; [lia|by []|].
  by rewrite add0n; apply: qinv_ext Q => k hk; apply: kZ; lia.
Qed.

Lemma putbackP j2 J s : (j2 <= J <= N)%N -> disj (qP s) j2 J -> pin j2 J s -> pin j2 j2 (putback M j2 J s).
Proof using NM.
  move=> hj D [Q HP fb fP]; rewrite /putback.
  set f : pst C -> nat -> pst C := (fun _ _ => _).
  suff H n : (n <= J - j2)%N -> let s' := foldl f s (iota j2 n) in
      [/\ qinv M 0 j2 N (fun i c => if (i < M)%N then A0 i (psig (qP s) 0 J (psig (qP s) j2 n c)) else A0 i c) (qA s') (fun k => (qb s k)^*) d0 (qd s),
          qP s' = qP s, qb s' = qb s & qd s' = qd s].
    have [Q' eP eb ed] := H _ (leqnn _); split; rewrite ?eP ?eb ?ed //; last by move=> k hk; apply: HP; lia.
    apply: qinv_extA Q' => i c; rewrite /pcols; case: ifP => // _; congr (A0 i _).
    have eJ : (J = j2 + (J - j2))%N by lia.
    by rewrite {1}eJ psig_cat add0n disj_inv.
  elim: n => [|n IH] hn.
    by split=> //; apply: qinv_extA Q => i c.
  have -> : iota j2 n.+1 = iota j2 n ++ [:: (j2 + n)%N] by have := iotaD j2 n 1; rewrite addn1.
  rewrite foldl_cat /=; have [Q' eP eb ed] := IH (ltnW hn); set s' := foldl f s _ in Q' eP eb ed *.
  have hp := HP (j2 + n)%N ltac:(lia).
  have eA i c : qA (f s' (j2 + n)%N) i c = swapAc M (j2 + n) (qP s (j2 + n)%N) (qA s') i c.
    rewrite /f eP; case: ifP => h //; have -> : qP s (j2 + n)%N = (j2 + n)%N by lia.
    exact: swap_id.
  split; try by rewrite /f; case: ifP.
  apply: (@qinv_swap _ M 0 j2 N _ (qA s') (fun k => (qb s k)^*) d0 (qd s) (j2 + n) (qP s (j2 + n)%N) _ _ _ _ _ 1) Q' => //; rewrite ?mul1r //.
  - by rewrite add0n; lia.
  - by rewrite add0n; lia.
  - by have -> : (j2 + n < N)%N = (qP s (j2 + n) < N)%N by lia.
  - by move=> i c; rewrite psigS /swapAc; case: ifP => hi; rewrite ?hi.
Qed.

Lemma zok0 A Z o : zok M A Z o 0.
Proof using. by rewrite /zok [Ymx _ _ _ _]thinmx0 !mul0mx subr0. Qed.
Lemma qinv00 o e A z (d : C) : qinv M o 0 e A A z d d.
Proof using.
  clear NM; split=> //= [k hk|c hc|c hc|c hc|k i hk|]; rewrite ?mul1mx ?det1 ?mulr1 //; lia.
Qed.

Lemma LBmidS fuel sc rth j1 j1x j3 s Z0 : (j1 < j3)%N ->
  LBmid nb under fuel.+1 sc rth M N j1 j1x j3 s Z0 =
  let: (s1, J, j3n) := MoveLow rth M j1x (minn j3 (j1 + nb)) j3 s in
  do r <- LBin under (J - j1).+1 sc rth M j1 j1 J J s1 Z0;
  LBmid nb under fuel sc rth M N r.2 r.2 j3n (putback M r.2 J (lbtrail sc M N j1 r.2 J r.1.1 r.1.2)) Z0.
Proof using.
  move=> /= ->; case: MoveLow => [[s1 J] j3n].
  by set x := (if (j1 < J)%N then _ else _); case: x => [[[s2 Z] j2]|e|].
Qed.
Lemma LBin0 fuel sc rth j1 J s Z : (J <= j1)%N -> LBin under fuel sc rth M j1 j1 J J s Z = Ok (s, Z, J).
Proof using. by case: fuel => [|f] h /=; rewrite ltnNge h. Qed.
Lemma LBin1 fuel sc rth j1 j j2 J s Z : (j < j2)%N -> nlt (qc s j) rth = false ->
  LBin under fuel.+1 sc rth M j1 j j2 J s Z =
  let r := lbstep under sc M j1 j j2 J s Z in LBin under fuel sc rth M j1 j.+1 j2 J r.1 r.2.
Proof using. by move=> /= -> ->; case: lbstep. Qed.

Hypothesis nb0 : (0 < nb)%N.
Lemma LBmidP sc rth fuel j1 j1x j3 s Z0 : (j3 - j1 <= fuel)%N -> (j1 <= j1x <= j1.+1)%N -> (j1x <= j3 <= N)%N ->
  pin j1 j1x s -> (j1 < j1x -> nlt (qc s j1) rth = false)%N ->
  exists s' j, [/\ LBmid nb under fuel sc rth M N j1 j1x j3 s Z0 = Ok (s', j, j), pin j j s', (j1x <= j <= N)%N & (j <= j3)%N].
Proof using NM nb0.
  elim: fuel j1 j1x j3 s => [|f IH] j1 j1x j3 s hf hx h3 p g.
    have e : j3 = j1 by lia. have e2 : j1x = j1 by lia.
    rewrite /= e ltnn; exists s, j1; split=> //; first by rewrite e2 in p.
    lia.
  case: (ltnP j1 j3) => h13; last first.
    have e : j3 = j1 by lia. have e2 : j1x = j1 by lia.
    rewrite /= e ltnn; exists s, j1; split=> //; first by rewrite e2 in p.
    lia.
  rewrite LBmidS //.
  have [s1 [J [j3n [-> [p1 D1] g1 c1 [k1 k2 k3]]]]] := @MoveLowP rth j1 j1x (minn j3 (j1 + nb)) j3 s ltac:(lia) ltac:(lia) ltac:(lia) ltac:(lia) p.
  case: (ltnP j1 J) => hJ; last first.
    have e : J = j1 by lia. have e2 : j1x = j1 by lia. have e3 : j3n = j1 by lia.
    rewrite LBin0 // /= /lbtrail e ltnn /putback subnn /= e3; rewrite e in p1.
    have [s' [j [e4 e5 e6 e7]]] := IH j1 j1 j1 s1 ltac:(lia) ltac:(lia) ltac:(lia) p1 ltac:(lia).
    by exists s', j; split=> //; lia.
  have gj : nlt (qc s1 j1) rth = false.
    case: (ltnP j1 j1x) => h; first by rewrite c1 // g.
    by apply: negbTE; apply: g1; lia.
  have hJN : (J <= N)%N by lia.
  rewrite LBin1 //=.
  have B0 : blk j1 J j1 (qd s1) s1 Z0 (qA s1).
    case: p1 => q1 q2 q3 q4; split=> //; rewrite ?subnn; [exact: qinv00|exact: zok0|move=> k; lia].
  have [B1 eP] := lbstepP sc J (j1 := j1) (J := J) (j := j1) ltac:(lia) hJN B0.
  move: B1 eP; case: lbstep => [s2 Z2] /= B1 eP.
  have D2 : disj (qP s2) j1.+1 J by rewrite eP; apply: disj_sub D1; lia.
  have [s3 [Z3 [j2 [Ab [-> h4 B3 D3]]]]] := @LBinP sc rth (J - j1) j1 J j1.+1 J (qd s1) s2 Z2 _ ltac:(lia) ltac:(lia) ltac:(lia) D2 B1.
  rewrite /=.
  have [p4 eP4] := lbtrailP sc (j1 := j1) (J := J) (j2 := j2) ltac:(lia) hJN B3.
  have p5 : pin j2 j2 (putback M j2 J (lbtrail sc M N j1 j2 J s3 Z3)).
    by apply: putbackP => //; [lia|rewrite eP4].
  have [s' [j [e4 e5 e6 e7]]] := IH j2 j2 j3n _ ltac:(lia) ltac:(lia) ltac:(lia) p5 ltac:(lia).
  by exists s', j; split=> //; lia.
Qed.

Lemma pin_pinv j s : (j <= N)%N -> pin j j s -> pinv M N A0 d0 j (qA s) (qb s) (qP s) (qd s * sgn C (qP s) j).
Proof using NM.
  move=> hj [Q HP fb fP]; split=> //.
  apply: (@qinv_swap _ M 0 j N _ (qA s) (fun k => (qb s k)^*) d0 (qd s) j j _ _ _ _ _ (sgn C (qP s) j)) Q => //; try (by move=> i c; apply: swap_id).
  - by rewrite mulrC.
  - by rewrite mulrC.
Qed.

Variables (sc thr : option C).
Notation tol := (qtol eps M N A0).
Hypothesis eps0 : 0 < eps.
Hypothesis epsN : N%:R * sqrteps eps <= 1.
Hypothesis Hthr : thr = if sc is Some s then Some (tol * tNORM s) else None.
Hypothesis Hpos : forall s : C, sc = Some s -> 0 < tol /\ 0 < tNORM s.

(** What is left to do for the determinant is the sign. *)
Definition looseres s : Prop :=
  exists r X, qrpres M N A0 b0 P0 d0 tol false false r X (qA s) (qb s) (qP s) (qd s * sgn C (qP s) N).

Lemma loose_end s : pin N N s -> looseres s.
Proof using All.
  move=> p; have [_ _ fb fP] := p; exists N.
  apply: (finishP (rk := false) (strict := false) NM (leqnn N) (pin_pinv (leqnn N) p)) => //.
  - by move=> k; lia.
  - by move=> i c; rewrite /finA; case: ifP => //; lia.
  - by move=> k; rewrite /finb; case: ifP => //; lia.
  - by move=> k; rewrite /finP; case: ifP => //; lia.
Qed.
Lemma loose_cut j s : (j <= N)%N -> pin j j s -> (forall k, (j <= k < N)%N -> cnq M j (qA s) k <= tol) -> looseres (finish M N j s).
Proof using All.
  move=> hj p hk; have [_ _ fb fP] := p; exists j.
  have := finishP (rk := false) (strict := false) NM hj (pin_pinv hj p) (b0 := b0) (P0 := P0) (tol := tol)
    (A' := qA (finish M N j s)) (beta' := qb (finish M N j s)) (P' := qP (finish M N j s)).
  have -> : sgn C (qP (finish M N j s)) N = sgn C (qP s) j by apply: sgn_finP.
  by apply.
Qed.

Definition LBstart (j1 jp : nat) s : pst C :=
  if jp != 0%N then PS (swapAc M j1 (jp + j1) (qA s)) (qb s) (updP (qP s) j1 (jp + j1)) (qd s) (swapcn j1 (jp + j1) (qc s)) (qr s)
  else PS (qA s) (qb s) (updP (qP s) j1 j1) (qd s) (qc s) (qr s).
Definition LBrth (mx : option C) : option C :=
  let r := nmul (N%:R * sqrteps eps) mx in if nlt r thr then thr else r.
Definition LBrecalc (j3 : nat) s : pst C :=
  if (j3 < N)%N then PS (qA s) (qb s) (qP s) (qd s) (fun k => if (j3 <= k < N)%N then colnsq sc M j3 (qA s) k else qc s k) (qr s)
  else s.
Lemma LBloopS fuel j1 s Z0 : (j1 < N)%N -> LBloop nb under eps fuel.+1 sc thr M N j1 s Z0 =
  let: (mx, jp) := maxel (qc s) j1 N in
  if nlt mx thr then Ok (finish M N j1 s)
  else do r <- LBmid nb under (N - j1) sc (LBrth mx) M N j1 j1.+1 N (LBstart j1 jp s) Z0;
       LBloop nb under eps fuel sc thr M N r.1.2 (LBrecalc r.2 r.1.1) Z0.
Proof using.
  move=> /= ->; case: maxel => mx jp; case: ifP => // _.
  by rewrite /LBstart /LBrth; case: (LBmid nb under _ _ _ _ _ _ _ _ _ _) => [[[s' j] j3]|e|].
Qed.

Lemma LBloopP fuel j1 s Z0 : (N - j1 <= fuel)%N -> (j1 <= N)%N -> pin j1 j1 s ->
  (forall k, (j1 <= k < N)%N -> qc s k = colnsq sc M j1 (qA s) k) ->
  exists2 s', LBloop nb under eps fuel sc thr M N j1 s Z0 = Ok s' & looseres s'.
Proof using All.
  elim: fuel j1 s => [|f IH] j1 s hf hj p cn.
    have e : j1 = N by lia.
    by rewrite e in p; rewrite /= e ltnn; exists s => //; apply: loose_end.
  case: (ltnP j1 N) => hjN; last first.
    have e : j1 = N by lia.
    by rewrite e in p; rewrite /= e ltnn; exists s => //; apply: loose_end.
  rewrite LBloopS //; have := maxelP (qc s) hjN; case E : maxel => [mx jp] [m1 m2 m3].
  have cr t k : sc = Some t -> qc s k = Some (cnq M j1 (qA s) k * tNORM t) -> isreal (qc s k).
    by move=> et ->; exists (cnq M j1 (qA s) k * tNORM t) => //; rewrite ger0_real // mulr_ge0 ?cnq_ge0 ?tN0.
  case: ifP => hcut.
    exists (finish M N j1 s) => //; apply: loose_cut => // k hk.
    case Es : sc cn hcut => [t|] cn hcut; last by move: hcut; rewrite m2 cn //; lia.
    have [t1 t2] := Hpos Es.
    have ck l : (j1 <= l < N)%N -> qc s l = Some (cnq M j1 (qA s) l * tNORM t) by move=> hl; rewrite cn // colnsqE.
    have := m3 (fun l hl => cr t l Es (ck l hl)) k hk.
    move: hcut; rewrite Hthr Es m2 !ck /=; [|lia|lia].
    rewrite !ltr_pmul2r // -real_leNgt ?ger0_real ?cnq_ge0 // => l1 l2.
    exact: ltW (le_lt_trans l2 l1).
  have hp : (j1 <= jp + j1 < N)%N by lia.
  have p1 : pin j1 j1.+1 (LBstart j1 jp s).
    rewrite /LBstart; case: eqP => _ /=; first by apply: pin_swap => //; [lia|exact: swap_id].
    by apply: pin_swap.
  have c1 : qc (LBstart j1 jp s) j1 = mx.
    rewrite m2 /LBstart; case: eqP => [->|_] /=; first by rewrite addn0.
    by rewrite /swapcn /tsw eqxx addnC.
  have g1 : nlt (qc (LBstart j1 jp s) j1) (LBrth mx) = false.
    rewrite c1 /LBrth /=; case: ifP => // _; rewrite m2 cn ?Hthr; last lia.
    case Es : sc => [t|] //; rewrite colnsqE /=; apply/negbTE; rewrite -real_leNgt ?realE.
    - by rewrite -[X in _ <= X]mul1r; apply: ler_wpmul2r => //; rewrite mulr_ge0 ?cnq_ge0 ?tN0.
    - by rewrite mulr_ge0 ?mulr_ge0 ?cnq_ge0 ?tN0 ?ler0n ?sqrtC_ge0 ?(ltW eps0).
    - by rewrite mulr_ge0 ?cnq_ge0 ?tN0.
  have [s' [j [-> p' h1 h2]]] := @LBmidP sc (LBrth mx) (N - j1) j1 j1.+1 N (LBstart j1 jp s) Z0 ltac:(lia) ltac:(lia) ltac:(lia) p1 (fun _ => g1).
  rewrite /=; apply: IH; [lia|lia|..].
  - by rewrite /LBrecalc; case: ifP => // _; case: p' => q1 q2 q3 q4; split.
  - by move=> k hk; rewrite /LBrecalc ifT /= ?hk //; lia.
Qed.
End Loose.

Section LooseStart.
Variable C : numClosedFieldType.
Variables (under : C -> bool) (eps : C) (nb M N : nat) (A0 : fm C).
Hypotheses (NM : (N <= M)%N) (N0 : (0 < N)%N) (nb0 : (0 < nb)%N) (eps0 : 0 < eps) (epsN : N%:R * sqrteps eps <= 1).

Lemma foldsgn (P : nat -> nat) (d : C) n :
  foldl (fun d i => if P i != i then - d else d) d (iota 0 n) = d * sgn C P n.
Proof using.
  elim: n => [|n IH]; first by rewrite /sgn big_geq // mulr1.
  have -> : iota 0 n.+1 = iota 0 n ++ [:: n] by have := iotaD 0 n 1; rewrite addn1 add0n.
  by rewrite foldl_cat /= IH sgnS; case: eqP => _ /=; rewrite ?mulr1 ?mulrN1 ?mulrN.
Qed.

Lemma LooseBlockQRP_P b P d cn0 Z0 :
  exists s, LooseBlockQRP nb under eps M N A0 b P d cn0 Z0 = Ok s /\ exists r X, qrpres M N A0 b P d (qtol eps M N A0) false false r X (qA s) (qb s) (qP s) (qd s).
Proof using All.
  rewrite /LooseBlockQRP; set s0 := qstart _ _ _ _ _ _ _ _.
  have p0 : pin M N A0 b P d 0 0 s0.
    split=> //; apply: (@qinv_extA _ M 0 0 N A0); last exact: qinv0.
    by move=> i c; rewrite /pcols; case: ifP.
  have [s' -> [r [X R]]] : exists2 s', LBloop nb under eps N (qscale M N A0) (qthresh eps N (qc s0)) M N 0 s0 Z0 = Ok s' & looseres eps M N A0 b P d s'.
    apply: LBloopP => //.
    - exact: thrE.
    - exact: scSome.
    - lia.
    - by move=> k hk /=; rewrite ifT.
   eexists; split; first by [].
  exists r, X; case: eqP => [e|_] /=; last by rewrite foldsgn.
  by move: R; rewrite e mul0r.
Qed.
End LooseStart.
