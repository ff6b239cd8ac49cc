(** Proofs about updating and downdating a QR decomposition. *)
From Coq Require Import Ring Field.
From Verif Require Import Base FMat TriSolve RingTac Cplx Chol Givens QR QRProofs QRUpdate.
From mathcomp Require Import all_ssreflect all_fingroup all_algebra zify.
Set Implicit Arguments. Unset Strict Implicit. Unset Printing Implicit Defensive.
Import GRing.Theory Num.Theory Order.Theory.
Local Open Scope ring_scope.

Section Stack.
Variable C : numClosedFieldType.
Add Field Cfu : (mc_ft C).
Ltac mfield := mcnorm C; field.
Ltac mring := mcnorm C; ring.
Variables M N : nat.
Implicit Types (A R Z Ra Rb Rc Aa Ab Ac : fm C) (z : fv C).
Notation L := (N + M)%N.

(** R on top of A, and the array of the reflection vectors. *)
Definition se R A : fm C := fun i c => if (i < N)%N then (if (i <= c)%N then R i c else 0) else A (i - N)%N c.
Definition sA A : fm C := fun i c => if (i < N)%N then 0 else A (i - N)%N c.
Definition zfm : fm C := fun _ _ => 0.

Lemma sA_top A i k : (i < N)%N -> sA A i k = 0. Proof. by rewrite /sA => ->. Qed.
Lemma yeltE A i k : (k < N)%N -> yelt (sA A) i k = if (i < N)%N then (i == k)%:R else A (i - N)%N k.
Proof.
  move=> hk; rewrite /yelt /sA; case: (ltngtP i k) => h /=; case: ltnP => h2 //; exfalso; lia.
Qed.

Lemma Pr_ortho A z o n (d : 'cV[C]_L) :
  (forall k, (o <= k < o + n)%N -> ctr (yv L (sA A) k) *m d = 0) -> Pr L (sA A) z o n *m d = d.
Proof.
  elim: n o => [|n IH] o h /=; first by rewrite mul1mx.
  rewrite -mulmxA IH; last by move=> k hk; apply: h; lia.
  by apply: Hm_fix; apply: h; lia.
Qed.

(** Reflecting the columns [o,o+n) takes R0 over A0 to R1 over A1 (over zero in those
    columns); A1 holds the vectors in them.  Columns up to e are carried along. *)
Record upd (o n e : nat) R0 A0 R1 A1 z : Prop := UPD {
  u_unit : forall k, (o <= k < o + n)%N -> unit_mx (Hm (z k) (yv L (sA A1) k));
  u_done : forall c, (o <= c < o + n)%N -> Pr L (sA A1) z o n *m colv L (se R1 zfm) c = colv L (se R0 A0) c;
  u_trail : forall c, (o + n <= c < e)%N -> Pr L (sA A1) z o n *m colv L (se R1 A1) c = colv L (se R0 A0) c;
  u_frR : forall i c, ~~ ((o <= i < o + n) && (i <= c))%N -> R1 i c = R0 i c;
  u_frA : forall i c, (c < o)%N -> A1 i c = A0 i c;
  u_diag : forall k, (o <= k < o + n)%N -> R0 k k = (1 - z k) * R1 k k }.

Lemma upd_z o n e R0 A0 R1 A1 z z' : (forall k, (o <= k < o + n)%N -> z k = z' k) ->
  upd o n e R0 A0 R1 A1 z -> upd o n e R0 A0 R1 A1 z'.
Proof.
  move=> h [u d t fr fa g]; have e1 : Pr L (sA A1) z o n = Pr L (sA A1) z' o n by apply: Pr_ext.
  split=> //; rewrite -?e1 // => k hk; first by rewrite -h //; apply: u.
  by rewrite -h //; apply: g.
Qed.
Lemma upd_le o n e e' R0 A0 R1 A1 z : (e' <= e)%N -> upd o n e R0 A0 R1 A1 z -> upd o n e' R0 A0 R1 A1 z.
Proof. by move=> he [u d t fr fa g]; split=> // c hc; apply: t; lia. Qed.

Lemma colv_ext (S S' : fm C) c : (forall i, (i < L)%N -> S i c = S' i c) -> colv L S c = colv L S' c.
Proof. by move=> h; apply/matrixP => i j; rewrite !mxE; apply: h. Qed.
Lemma se_ext R R' A A' i c : (i < L)%N -> ((i < N)%N -> (i <= c)%N -> R i c = R' i c) ->
  ((N <= i)%N -> (i - N < M)%N -> A (i - N)%N c = A' (i - N)%N c) -> se R A i c = se R' A' i c.
Proof.
  move=> hi h1 h2; rewrite /se; case: ltnP => h; last by apply: h2 => //; lia.
  by case: leqP => // h3; apply: h1.
Qed.
Lemma sAy_ext A A' k : (k < N)%N -> (forall i, (i < M)%N -> A i k = A' i k) -> yv L (sA A) k = yv L (sA A') k.
Proof.
  move=> hk h; apply: yv_ext => i hi; rewrite /sA; case: ltnP => // h2; apply: h; lia.
Qed.
Lemma sAPr_ext A A' z z' o n : (forall i k, (o <= k < o + n)%N -> (i < M)%N -> A i k = A' i k) ->
  (forall k, (o <= k < o + n)%N -> z k = z' k) -> Pr L (sA A) z o n = Pr L (sA A') z' o n.
Proof.
  move=> h h2; apply: Pr_ext => // i k hk hi; rewrite /sA; case: ltnP => // h3; apply: h => //; lia.
Qed.

Lemma upd_join o n1 n2 e R0 A0 R1 A1 R2 A2 z1 z2 : (o + n1 + n2 <= e)%N -> (o + n1 + n2 <= N)%N ->
  (forall k, (o <= k < o + n1)%N -> z1 k = z2 k) ->
  upd o n1 e R0 A0 R1 A1 z1 -> upd (o + n1) n2 e R1 A1 R2 A2 z2 -> upd o (n1 + n2) e R0 A0 R2 A2 z2.
Proof.
  move=> he hN hz /(upd_z hz) [u1 d1 t1 fr1 fa1 g1] [u2 d2 t2 fr2 fa2 g2].
  have ye k : (k < o + n1)%N -> yv L (sA A2) k = yv L (sA A1) k.
    by move=> hk; apply: sAy_ext => [|i _]; [lia|apply: fa2].
  have pe : Pr L (sA A2) z2 o n1 = Pr L (sA A1) z2 o n1 by apply: sAPr_ext => // i k hk _; apply: fa2; lia.
  split.
  - move=> k hk; case: (ltnP k (o + n1)) => h; first by rewrite ye //; apply: u1; lia.
    by apply: u2; lia.
  - move=> c hc; rewrite Pr_cat pe -mulmxA; case: (ltnP c (o + n1)) => h.
      have -> : colv L (se R2 zfm) c = colv L (se R1 zfm) c.
        by apply: colv_ext => i hi; apply: se_ext => // h1 h2; apply: fr2; lia.
      rewrite (@Pr_fix _ _ (sA A2) z2 (o + n1)); first by apply: d1; lia.
      move=> i hi; rewrite mxE /se; case: ltnP => // _; case: leqP => // h3; exfalso; lia.
    by rewrite d2; [apply: t1; lia|lia].
  - by move=> c hc; rewrite Pr_cat pe -mulmxA t2; [apply: t1; lia|lia].
  - by move=> i c h; rewrite fr2; [apply: fr1; lia|lia].
  - by move=> i c h; rewrite fa2; [apply: fa1|lia].
  - move=> k hk; case: (ltnP k (o + n1)) => h.
      by rewrite fr2; [apply: g1; lia|lia].
    by rewrite -g2 ?fr1 //; lia.
Qed.

(** Rows of R outside [o,o+n) do not matter. *)
Lemma upd_local o n e R0 A0 R1 A1 Ra Rb z : (o + n <= N)%N -> upd o n e R0 A0 R1 A1 z ->
  (forall i c, (o <= i < o + n)%N -> Ra i c = R0 i c /\ Rb i c = R1 i c) ->
  (forall i c, ~~ (o <= i < o + n)%N -> Ra i c = Rb i c) ->
  upd o n e Ra A0 Rb A1 z.
Proof.
  move=> hN [u d t fr fa g] h1 h2.
  set D := fun c => \col_i (if ((i : 'I_L) < N)%N && ~~ (o <= i < o + n)%N && (i <= c)%N then Rb i c - R1 i c else 0) : 'cV[C]_L.
  have eb X c : colv L (se Rb X) c = colv L (se R1 X) c + D c.
    apply/matrixP => i j; rewrite !mxE /se; case: ltnP => hi /=; last by rewrite addr0.
    case: (boolP (o <= i < o + n)%N) => h /=; last first.
      by case: leqP => hh; rewrite ?addr0 // addrC subrK.
    by rewrite addr0 (proj2 (h1 _ _ h)).
  have ea X c : colv L (se Ra X) c = colv L (se R0 X) c + D c.
    apply/matrixP => i j; rewrite !mxE /se; case: ltnP => hi /=; last by rewrite addr0.
    case: (boolP (o <= i < o + n)%N) => h /=; last first.
      case: leqP => _; last by rewrite addr0.
      by rewrite h2 // fr ?(negbTE h) // addrC subrK.
    by rewrite addr0 (proj1 (h1 _ _ h)).
  have PD c : Pr L (sA A1) z o n *m D c = D c.
    apply: Pr_ortho => k hk; apply/matrixP => i j; rewrite !ord1 !mxE big1 // => l _; rewrite !mxE yeltE; last lia.
    case: ltnP => hl /=; last by rewrite mulr0.
    case: (boolP (o <= l < o + n)%N) => h /=; first by rewrite mulr0.
    have -> : (l == k :> nat) = false by apply/eqP => e1; move: h; rewrite e1 hk.
    by rewrite conjC0 mul0r.
  split=> //.
  - by move=> c hc; rewrite eb ea mulmxDr d // PD.
  - by move=> c hc; rewrite eb ea mulmxDr t // PD.
  - move=> i c h; case: (boolP (o <= i < o + n)%N) => h3; last by rewrite h2.
    by have [-> ->] := h1 i c h3; apply: fr.
  - by move=> k hk; have [-> ->] := h1 k k hk; apply: g.
Qed.

(** Downdating: R is taken from R1 back to R2, A from A0 on to A2. *)
Lemma upd_back o n1 n2 e R0 A0 R1 A1 R2 A2 z1 z2 : (o + n1 + n2 <= e)%N -> (o + n1 + n2 <= N)%N ->
  (forall k, (o <= k < o + n1)%N -> z1 k = z2 k) ->
  upd o n1 e R1 A0 R0 A1 z1 -> upd (o + n1) n2 e R2 A1 R1 A2 z2 -> upd o (n1 + n2) e R2 A0 R0 A2 z2.
Proof.
  move=> he hN hz U1 U2.
  have f1 := u_frR U1; have f2 := u_frR U2.
  set Rm : fm C := fun i c => if (i < o + n1)%N then R0 i c else R2 i c.
  have V1 : upd o n1 e R2 A0 Rm A1 z1.
    apply: (upd_local _ U1); first lia.
      move=> i c hi; have h : (i < o + n1)%N by lia.
      by rewrite /Rm h -f2 //; lia.
    move=> i c hi; rewrite /Rm; case: ltnP => // h; rewrite f1; last lia.
    by rewrite f2 //; lia.
  have V2 : upd (o + n1) n2 e Rm A1 R0 A2 z2.
    apply: (upd_local _ U2); first lia.
      move=> i c hi; have h : (i < o + n1)%N = false by lia.
      by rewrite /Rm h f1 //; lia.
    move=> i c hi; rewrite /Rm; case: ltnP => // h; rewrite f1; last lia.
    by rewrite f2 //; lia.
  exact: (upd_join he hN hz V1 V2).
Qed.

(** Carrying further columns along. *)
Lemma upd_ext o n e Ra Aa Rb Ab Ra' Rb' Ab' z : (o + n <= e)%N -> (o + n <= N)%N ->
  upd o n (o + n) Ra Aa Rb Ab z ->
  (forall i c, (c < o + n)%N -> [/\ Ra' i c = Ra i c, Rb' i c = Rb i c & Ab' i c = Ab i c]) ->
  (forall c, (o + n <= c < e)%N -> colv L (se Rb' Ab') c = ctr (Pr L (sA Ab) z o n) *m colv L (se Ra' Aa) c) ->
  (forall i c, (o + n <= c)%N -> ~~ (o <= i < o + n)%N -> Rb' i c = Ra' i c) ->
  upd o n e Ra' Aa Rb' Ab' z.
Proof.
  move=> he hN [u d t fr fa g] hc htr hfr.
  have pe : Pr L (sA Ab') z o n = Pr L (sA Ab) z o n.
    by apply: sAPr_ext => // i k hk _; have [_ _ ->] := hc i k ltac:(lia).
  have U := Pr_unit u.
  split.
  - move=> k hk; rewrite (@sAy_ext Ab' Ab); [exact: u|lia|] => i _.
    by have [_ _ ->] := hc i k ltac:(lia).
  - move=> c h; rewrite pe.
    have -> : colv L (se Rb' zfm) c = colv L (se Rb zfm) c.
      by apply: colv_ext => i hi; apply: se_ext => // h1 h2; have [_ -> _] := hc i c ltac:(lia).
    rewrite d //; apply: colv_ext => i hi; apply: se_ext => // h1 h2; by have [-> _ _] := hc i c ltac:(lia).
  - by move=> c h; rewrite pe htr // mulmxA (unit_mxC U) mul1mx.
  - move=> i c h; case: (ltnP c (o + n)) => h2; last by apply: hfr => //; lia.
    by have [-> -> _] := hc i c h2; apply: fr.
  - by move=> i c h; have [_ _ ->] := hc i c ltac:(lia); apply: fa.
  - by move=> k hk; have [-> -> _] := hc k k ltac:(lia); apply: g.
Qed.

(** One reflection. *)
Lemma upd1 o Ra Aa Rb Ab r (x : fv C) b z : (o < N)%N -> z o = b^* ->
  r \is Num.real ->
  b + b^* = b * b^* * (1 + \sum_(0 <= i < M) x i * (x i)^*) ->
  r - b^* * r = Ra o o -> (forall i, (i < M)%N -> - (b^* * x i * r) = Aa i o) ->
  (b = 0 -> forall i, (i < M)%N -> x i = 0) ->
  (forall i c, Rb i c = if (i == o) && (c == o) then r else Ra i c) ->
  (forall i c, Ab i c = if (c == o) && (i < M)%N then x i else Aa i c) ->
  upd o 1 (o + 1) Ra Aa Rb Ab z.
Proof.
  move=> ho hz hr hu h0 hx hb hR hA.
  set xs : fv C := fun i => if (i < N)%N then 0 else x (i - N)%N.
  have es : \sum_(o.+1 <= i < L) xs i * (xs i)^* = \sum_(0 <= i < M) x i * (x i)^*.
    rewrite (big_cat_nat _ (n := N)) /=; [|lia|lia].
    rewrite big_nat big1 ?add0r; last by move=> i hi; rewrite /xs (_ : (i < N)%N) ?mul0r //; lia.
    rewrite -{1}[N]add0n big_addn addKn; apply: eq_big_nat => i hi.
    by rewrite /xs ltnNge leq_addl /= addnK.
  have hoL : (o < L)%N by lia.
  have Q : qinv L o 1 (o + 1) (se Ra Aa) (setbelow L o r xs (se Ra Aa)) z 0 0.
    apply: (@hrefl_core C L o _ r xs b 0 0 z hoL hz hr).
    - by rewrite es.
    - by rewrite h0 /se ho leqnn.
    - move=> i hi; rewrite /xs /se; case: ltnP => h2.
        by rewrite mulr0 mul0r oppr0 leqNgt (_ : (o < i)%N) //; lia.
      by apply: hx; lia.
    - by move=> e i hi; rewrite /xs; case: ltnP => // h2; apply: hb => //; lia.
    - by rewrite mul0r.
  set S := setbelow _ _ _ _ _ in Q.
  have ye : yv L (sA Ab) o = yv L S o.
    apply: yv_ext => i hi; rewrite /S setbelow_in // /sA /xs; case: ltnP => // h2.
    by rewrite hA eqxx (_ : (i - N < M)%N) //; lia.
  have ko k : (o <= k < o + 1)%N -> k = o by lia.
  split.
  - by move=> k hk; rewrite (ko _ hk) ye; apply: (qi_unit Q); lia.
  - move=> c hc; have := qi_done Q hc; rewrite (ko _ hc) /= ye => <-; congr (_ *m _).
    apply/matrixP => i j; rewrite !mxE /se; case: (ltngtP (i : nat) o) => hi.
    + have hN : (i < N)%N by lia.
      by rewrite hN hR (ltn_eqF hi) /= /S setbelow_fr ?/se ?hN ?(ltnW hi) //; lia.
    + by case: ifP.
    + by rewrite hi ho hR eqxx /S setbelow_d.
  - by move=> c hc; exfalso; lia.
  - by move=> i c h; rewrite hR ifN //; lia.
  - by move=> i c h; rewrite hA ifN //; lia.
  - by move=> k hk; rewrite (ko _ hk) hR !eqxx /= hz -h0; mring.
Qed.

(** What a HouseholderReflect computes. *)
Lemma Hm_unit_inv n (z : C) (y : 'cV[C]_n) i0 : unit_mx (Hm z y) -> y i0 0 = 1 -> z + z^* = z * z^* * nsq y.
Proof.
  rewrite /unit_mx ctrHm /Hm mulmxBr mulmx1 mulmxBl mul1mx.
  rewrite -scalemxAl -scalemxAr mulmxA -(mulmxA y) nsqE mul_mx_scalar -scalemxAl !scalerA.
  move=> /matrixP /(_ i0 i0) h e; move: h; rewrite !mxE big_ord1 !mxE e conjC1 eqxx mulr1n => h.
  apply/eqP; rewrite -subr_eq0; apply/eqP.
  have -> : z + z^* - z * z^* * nsq y = 1 - (1 - z^* * (1 * 1) - (z * (1 * 1) - z^* * (z * nsq y) * (1 * 1))) by mring.
  by rewrite h subrr.
Qed.

Lemma hreflVP under (x0 : C) (v : fv C) r x b : hreflV under M x0 v = (r, x, b) ->
  [/\ r \is Num.real,
      b + b^* = b * b^* * (1 + \sum_(0 <= i < M) x i * (x i)^*),
      r - b^* * r = x0,
      forall i, (i < M)%N -> - (b^* * x i * r) = v i
    & b = 0 -> forall i, (i < M)%N -> x i = 0].
Proof.
  rewrite /hreflV; set B := fun i _ => _; case E : hreflect => [[B' b'] d'] -[<- <- <-].
  have Q := @hreflectP C M.+1 under 0 B 0 B' b' d' (fun _ => b'^*) ltac:(lia) E erefl.
  have hy (i : 'I_M) : yv M.+1 B' 0 (lift ord0 i) 0 = B' i.+1 0%N by rewrite mxE.
  have hy0 : yv M.+1 B' 0 ord0 0 = 1 by rewrite mxE.
  have en : nsq (yv M.+1 B' 0) = 1 + \sum_(0 <= i < M) B' i.+1 0%N * (B' i.+1 0%N)^*.
    by rewrite /nsq big_ord_recl hy0 conjC1 mulr1 big_mkord; congr (_ + _); apply: eq_bigr => i _; rewrite hy.
  have U := qi_unit Q (k := 0%N) ltac:(lia).
  have D := qi_done Q (c := 0%N) ltac:(lia).
  have ey : ctr (yv M.+1 B' 0) *m rcol M.+1 B' 0 = (B' 0%N 0%N)%:M.
    apply/matrixP => i j; rewrite !ord1 !mxE big_ord_recl big1 ?addr0; last by move=> k _; rewrite !mxE mulr0.
    by rewrite !mxE /yelt eqxx conjC1 mul1r mulr1n.
  move: D; rewrite /= mulmx1 /Hm mulmxBl mul1mx -scalemxAl -mulmxA ey mul_mx_scalar => /matrixP D.
  split.
  - by apply: (qi_real Q); lia.
  - have := Hm_unit_inv U hy0; rewrite en conjCK => e; rewrite addrC e; congr (_ * _); exact: mulrC.
  - by have := D ord0 0; rewrite !mxE /= => <-; rewrite mulr1.
  - move=> i hi; have := D (lift ord0 (Ordinal hi)) 0; rewrite !mxE /= => <-; rewrite sub0r -mulrA; congr (- (_ * _)); exact: mulrC.
  - move=> e i hi; apply: (qi_zero Q (k := 0%N)); [lia| |lia].
    by rewrite e conjC0.
Qed.

(** What a HouseholderUnReflect computes. *)
Lemma sumN0 (x : fv C) : \sum_(0 <= i < M) tNORM (x i) = 0 -> forall i, (i < M)%N -> x i = 0.
Proof.
  move=> h i hi; have : tNORM (x i) = 0.
    by apply: (@sum0_nat _ (fun i => tNORM (x i)) 0 M) => // j; rewrite tNORM_norm exprn_ge0.
  by rewrite tNORM_norm => /eqP; rewrite expf_eq0 /= normr_eq0 => /eqP.
Qed.

Lemma hunreflP (y : C) (v : fv C) : y \is Num.real ->
  match hunrefl M y v with
  | Ok (y', x, b) =>
      [/\ y' \is Num.real,
          b + b^* = b * b^* * (1 + \sum_(0 <= i < M) x i * (x i)^*),
          y - b^* * y = y' /\ (forall i, (i < M)%N -> - (b^* * x i * y) = v i),
          b = 0 -> forall i, (i < M)%N -> x i = 0
        & y' = 0 -> y * y <= \sum_(0 <= i < M) tNORM (v i)]
  | Throw e => e = NonPosDef /\ y * y <= \sum_(0 <= i < M) tNORM (v i)
  | UB => False
  end.
Proof.
  move=> yr; rewrite /hunrefl; set n1 := \sum_(_ <= _ < _) _.
  have n10 : 0 <= n1 by apply: sumr_ge0 => i _; rewrite tNORM_norm exprn_ge0.
  case: (eqVneq n1 0) => [e|hn].
    have h0 := sumN0 e; split=> //.
    - by rewrite conjC0 !mul0r addr0.
    - split; first by rewrite conjC0 mul0r subr0.
      by move=> i hi; rewrite conjC0 !mul0r oppr0 h0.
    - by move=> ->; rewrite mul0r.
  have n1p : 0 < n1 by rewrite lt_neqAle eq_sym hn.
  rewrite (realre yr); have yyr : y ^+ 2 - n1 \is Num.real by rewrite realB ?realX // ger0_real.
  case: ifP => [h|h].
    by split=> //; rewrite -expr2 -subr_le0 ltW.
  have n0p : 0 <= y ^+ 2 - n1 by rewrite real_leNgt ?h // real0.
  set x0 := if _ then _ else _.
  have y2p : 0 < y ^+ 2 by apply: lt_le_trans n1p _; rewrite -subr_ge0.
  have y0 : y != 0 by apply: contraTneq y2p => ->; rewrite expr0n ltxx.
  have sp : 0 <= sqrtC (y ^+ 2 - n1) by rewrite sqrtC_ge0.
  have x02 : x0 * x0 = y ^+ 2 - n1 by rewrite /x0 -[RHS]sqrtCK expr2; case: ifP => // _; rewrite mulrNN.
  have xr : x0 \is Num.real by rewrite /x0; case: ifP => _; rewrite ?realN ger0_real.
  have v0n : x0 - y != 0.
    rewrite subr_eq0; apply: contraTneq n1p => e; rewrite e expr2 in x02.
    have -> : n1 = y * y - (y * y - n1) by rewrite opprB addrC subrK.
    by rewrite -x02 subrr ltxx.
  have e1 : y ^+ 2 - y * x0 = - (y * (x0 - y)) by mring.
  have d1 : - (y * (x0 - y)) != 0 by rewrite oppr_eq0 mulf_neq0.
  rewrite /sdiv e1 (negbTE d1) /= (negbTE v0n) /=.
  have cx : x0^* = x0 by exact: realcj.
  have cy : y^* = y by exact: realcj.
  have en : n1 = y * y - x0 * x0 by rewrite x02 expr2 opprB addrC subrK.
  set b := tNORM _ / _.
  have eb : b = 1 - x0 / y.
    by rewrite /b tNORM_conj cjD cjN cx cy; mfield; repeat split; exact/eqP.
  have cb : b^* = b by rewrite eb cjD cjN cjM cjV cx cy conjC1.
  have es : \sum_(0 <= i < M) v i * (1 / (x0 - y)) * (v i * (1 / (x0 - y)))^* = n1 / ((x0 - y) * (x0 - y)).
    rewrite /n1 mulr_suml; apply: eq_big_nat => i hi.
    rewrite tNORM_conj !cjM conjC1 cjV cjD cjN cx cy; mfield; exact/eqP.
  split=> //.
  - rewrite es cb eb en; mfield; split; exact/eqP.
  - split; first by rewrite cb eb; mfield; exact/eqP.
    by move=> i hi; rewrite cb eb; mfield; split; exact/eqP.
  - move=> e i hi; exfalso; move: v0n; rewrite subr_eq0; apply/negP; rewrite negbK.
    have : 1 = x0 / y by apply/eqP; rewrite -subr_eq0 -eb e.
    by move/(congr1 (fun t => t * y)); rewrite mul1r mulfVK // => ->.
  - by move=> e; rewrite en e mul0r subr0.
Qed.

(** Sums over the stacked rows. *)
Lemma sumL (f : nat -> C) : \sum_(i < L) f i = \sum_(0 <= i < N) f i + \sum_(0 <= i < M) f (N + i)%N.
Proof.
  rewrite -(big_mkord xpredT) (big_cat_nat _ (n := N)) /=; [|lia|lia]; congr (_ + _).
  by rewrite -{1}[N]add0n big_addn addKn; apply: eq_big_nat => i hi; rewrite addnC.
Qed.
Lemma sumN1 (f : nat -> C) k : (k < N)%N -> (forall i, (i < N)%N -> i != k -> f i = 0) -> \sum_(0 <= i < N) f i = f k.
Proof.
  move=> hk h; rewrite big_mkord (bigD1 (Ordinal hk)) //= big1 ?addr0 // => i hi; apply: h => //.
Qed.
Lemma YtS R A l c : (l < N)%N -> (l <= c)%N ->
  \sum_(i < L) (yelt (sA A) i l)^* * se R A i c = YtA M A l c + R l c.
Proof.
  move=> hl hc; rewrite (sumL (fun i => (yelt (sA A) i l)^* * se R A i c)) addrC; congr (_ + _).
    apply: eq_big_nat => i hi; rewrite yeltE // /se.
    have -> : (N + i < N)%N = false by lia.
    by rewrite addKn.
  rewrite (@sumN1 _ l) //; first by rewrite yeltE // hl eqxx conjC1 mul1r /se hl hc.
  by move=> i hi hil; rewrite yeltE // hi (negbTE hil) conjC0 mul0r.
Qed.
Lemma YtY A t l : (t < N)%N -> (l < N)%N -> t != l ->
  \sum_(i < L) (yelt (sA A) i t)^* * yelt (sA A) i l = YtA M A t l.
Proof.
  move=> ht hl htl; rewrite (sumL (fun i => (yelt (sA A) i t)^* * yelt (sA A) i l)).
  rewrite big_nat big1 ?add0r.
    apply: eq_big_nat => i hi; rewrite !yeltE //.
    have -> : (N + i < N)%N = false by lia.
    by rewrite addKn.
  move=> i hi; rewrite !yeltE //; have -> : (i < N)%N by lia.
  case: (eqVneq i t) => [->|_]; last by rewrite conjC0 mul0r.
  by rewrite (negbTE htl) mulr0.
Qed.

Lemma upblockE o n c0 c1 R A Z c : (o + n <= N)%N -> (o + n <= c0)%N -> (c0 <= c < c1)%N ->
  let ZW := upZW M o n A R Z in
  colv L (se (subR o n c0 c1 R ZW) (subA M o n c0 c1 A ZW)) c =
  (1%:M - Ymx L (sA A) o n *m ctr (Zmx Z o n) *m ctr (Ymx L (sA A) o n)) *m colv L (se R A) c.
Proof.
  move=> hN hc0 hc ZW; rewrite mulmxBl mul1mx -!mulmxA; set V := ctr (Zmx _ _ _) *m (ctr _ *m _).
  have eV (k : 'I_n) : V k 0 = ZW (o + k)%N c.
    rewrite /V mxE /ZW /upZW sum_shift; apply: eq_bigr => l _; have hl := ltn_ord l.
    rewrite !mxE; congr (_ * _); rewrite -YtS; [|lia|lia].
    by apply: eq_bigr => i _; rewrite !mxE.
  apply/matrixP => i j; rewrite !ord1 !mxE.
  have -> : \sum_k Ymx L (sA A) o n i k * V k 0 = \sum_(o <= k < o + n) yelt (sA A) i k * ZW k c.
    by rewrite sum_shift; apply: eq_bigr => k _; rewrite eV mxE.
  have hiL := ltn_ord i; rewrite /se; case: ltnP => hi; last first.
    rewrite /subA hc (_ : (i - N < M)%N) /=; last lia.
    congr (_ - _); apply: eq_big_nat => k hk; rewrite yeltE; last lia.
    by have -> : (i < N)%N = false by lia.
  rewrite /subR hc andbT; case: (boolP (o <= i < o + n)%N) => h.
    have hic : (i <= c)%N by lia.
    rewrite hic; congr (_ - _); rewrite sum_shift.
    have hio : (i - o < n)%N by lia.
    rewrite (bigD1 (Ordinal hio)) //= big1 ?addr0 => [|k hk].
      have -> : (o + (i - o) = i)%N by lia.
      by rewrite yeltE // hi eqxx mul1r.
    have hkn := ltn_ord k; rewrite yeltE; last lia.
    rewrite hi; have -> : (i == o + k :> nat)%N = false; last by rewrite mul0r.
    apply/negbTE; apply: contra hk => /eqP e; apply/eqP/val_inj => /=; lia.
  rewrite big_nat big1 ?subr0 // => k hk; rewrite yeltE; last lia.
  rewrite hi; have -> : (i == k :> nat)%N = false; last by rewrite mul0r.
  by apply/negbTE; apply: contra h => /eqP ->.
Qed.

Lemma up_trail o n e R0 A0 R A Z Ra Aa : (o + n <= e)%N -> (o + n <= N)%N ->
  upd o n (o + n) R0 A0 R A (fun k => Z k k) -> zok L (sA A) Z o n ->
  (forall i c, (o + n <= c)%N -> R i c = R0 i c /\ A i c = A0 i c) ->
  (forall i c, Ra i c = subR o n (o + n) e R (upZW M o n A R Z) i c) ->
  (forall i c, Aa i c = subA M o n (o + n) e A (upZW M o n A R Z) i c) ->
  upd o n e R0 A0 Ra Aa (fun k => Z k k).
Proof.
  move=> he hN U hz hfr hR hA.
  have R1 i c : (c < o + n)%N -> Ra i c = R i c by move=> h; rewrite hR /subR ifN //; lia.
  have A1 i c : (c < o + n)%N -> Aa i c = A i c by move=> h; rewrite hA /subA ifN //; lia.
  apply: (upd_ext he hN U).
  - by move=> i c h; rewrite R1 // A1.
  - move=> c hc; rewrite -hz.
    have -> : ctr (1%:M - Ymx L (sA A) o n *m Zmx Z o n *m ctr (Ymx L (sA A) o n))
            = 1%:M - Ymx L (sA A) o n *m ctr (Zmx Z o n) *m ctr (Ymx L (sA A) o n).
      by rewrite ctrB ctr1 !ctrM ctrK mulmxA.
    have -> : colv L (se R0 A0) c = colv L (se R A) c.
      apply: colv_ext => i hi; have [] := hfr i c ltac:(lia).
      have [] := hfr (i - N)%N c ltac:(lia) => _ e1 e2 _; exact: se_ext.
    rewrite -(upblockE R A Z hN (leqnn _) hc); apply: colv_ext => i hi; apply: se_ext => // _ _.
  - move=> i c hc hi; rewrite hR /subR (negbTE hi) /=; exact: (proj1 (hfr i c hc)).
Qed.

Lemma upZ3P o j1 n2 A Z : (o + (j1 + n2) <= N)%N -> zok L (sA A) Z o j1 -> zok L (sA A) Z (o + j1) n2 ->
  zok L (sA A) (upZ3 M o j1 (j1 + n2) A Z) o (j1 + n2).
Proof.
  move=> hn z1 z2; apply: (@zok_ext _ _ (sA A) _ (makeZ3 L o j1 (j1 + n2) (sA A) Z)) => //; last first.
    by apply: makeZ3P => //; lia.
  move=> k l hk hl; rewrite /makeZ3 /upZ3; case: ifP => // h; apply: eq_big_nat => t ht; congr (- _ * _).
  apply: eq_big_nat => s hs; congr (_ * _); rewrite WE; [|lia|lia|lia].
  by apply: YtY; lia.
Qed.
Lemma upZ01P o A Z Z' : (o + 2 <= N)%N -> (forall k l, (k != o) || (l != o.+1) -> Z' k l = Z k l) ->
  Z' o o.+1 = - (Z o o * Z o.+1 o.+1) * YtA M A o o.+1 -> zok L (sA A) Z' o 2.
Proof.
  move=> hn h1 h2; apply: (@zok_ext _ _ (sA A) _ (upZ3 M o 1 (1 + 1) A Z)) => //; last first.
    by apply: upZ3P; [lia|exact: zok1|exact: zok1].
  move=> k l hk hl; rewrite /upZ3; case: ifP => h; last by rewrite h1 //; lia.
  have -> : k = o by lia.
  have -> : l = o.+1 by lia.
  by rewrite addnA !addn1 !big_nat1 h2 /zelt !leqnn; mring.
Qed.

(** What RecursiveQRUpdate on the columns [o,o+n) achieves. *)
Record rpost (o n : nat) (mkZ : bool) R A Z (s : fm C * fm C * fm C) : Prop := RP {
  rp_upd : upd o n (o + n) R A s.1.1 s.1.2 (fun k => s.2 k k);
  rp_frR : forall i c, ~~ ((o <= i < o + n) && (i <= c < o + n))%N -> s.1.1 i c = R i c;
  rp_frA : forall i c, ~~ ((i < M) && (o <= c < o + n))%N -> s.1.2 i c = A i c;
  rp_real : forall c, (o <= c < o + n)%N -> s.1.1 c c \is Num.real;
  rp_zok : mkZ -> zok L (sA s.1.2) s.2 o n;
  rp_frZ : forall k l, ~~ ((o <= k < o + n) && (o <= l < o + n))%N -> s.2 k l = Z k l }.

Variable under : C -> bool.

Lemma refl_step o R A Z r x b mkZ : (o < N)%N -> hreflV under M (R o o) (fun i => A i o) = (r, x, b) ->
  rpost o 1 mkZ R A Z (updm R o o r, setcol o M A x, updm Z o o b^*).
Proof.
  move=> ho /hreflVP [h1 h2 h3 h4 h5]; split=> /=.
  - by apply: (@upd1 o R A _ _ r x b) => //; rewrite /updm !eqxx.
  - by move=> i c h; rewrite /updm ifN //; lia.
  - by move=> i c h; rewrite /setcol ifN //; lia.
  - by move=> c hc; have -> : c = o by [lia]; rewrite /updm !eqxx.
  - by move=> _; apply: zok1.
  - by move=> k l h; rewrite /updm ifN //; lia.
Qed.

Lemma RecUpP fuel o n mkZ R A Z : (n < fuel)%N -> (0 < n)%N -> (o + n <= N)%N ->
  exists s, RecUp under fuel M o n mkZ (R, A, Z) = Ok s /\ rpost o n mkZ R A Z s.
Proof.
  elim: fuel o n mkZ R A Z => // f IH o n mkZ R A Z hf hn hN; cbn [RecUp].
  case: eqP => [n1|n1].
    rewrite n1; case E : hreflV => [[r x] b]; eexists; split; first reflexivity.
    by apply: refl_step E; lia.
  case: eqP => [n2|n2].
    rewrite n2 in hN *; case E0 : hreflV => [[r0 x0] b0].
    have ho : (o < N)%N by lia.
    have ho1 : (o.+1 < N)%N by lia.
    have P1 := refl_step Z true ho E0; cbv zeta.
    set R1 := updm R o o r0 in P1 *; set A1 := setcol o M A x0 in P1 *; set Z1 := updm Z o o b0^* in P1 *.
    case: (P1) => /= U1 fR1 fA1 rl1 zk1 fZ1.
    set RA2 := if _ then _ else _.
    have P2 : upd o 1 (o + 2) R A RA2.1 RA2.2 (fun k => Z1 k k).
      have ez : zelt Z1 o o = b0^* by rewrite /zelt leqnn /Z1 /updm eqxx.
      apply: (up_trail _ _ U1 (zok1 _ _ _ _)); [lia|lia| | |] => i c.
      - by move=> hc; rewrite fR1 ?fA1 //; lia.
      - rewrite /RA2 /subR /upZW addn1 big_nat1; case: (boolP (_ && _)) => h.
          have ei : i = o by lia.
          have ec : c = o.+1 by lia.
          rewrite ei ec ez conjCK; case: (eqVneq b0 0) => [->|_] /=; first by rewrite mul0r subr0.
          by rewrite /updm !eqxx.
        case: (eqVneq b0 0) => //= _; rewrite /updm ifN //; lia.
      - rewrite /RA2 /subA /upZW addn1; case: (boolP (_ && _)) => h.
          have ec : c = o.+1 by lia.
          have hi : (i < M)%N by lia.
          rewrite ec !big_nat1 ez conjCK; case: (eqVneq b0 0) => [->|_] /=; first by rewrite mul0r mulr0 subr0.
          by rewrite /setcol hi eqxx /=; congr (_ - _); mring.
        case: (eqVneq b0 0) => //= _; rewrite /setcol ifN //; lia.
    have fR2 i c : ~~ ((i == o) && (o <= c < o + 2))%N -> RA2.1 i c = R i c.
      move=> h; rewrite -(fR1 i c) /=; last lia.
      by rewrite /RA2; case: (b0 != 0) => //=; rewrite /updm ifN //; lia.
    have fA2 i c : ~~ ((i < M)%N && (o <= c < o + 2)%N) -> RA2.2 i c = A i c.
      move=> h; rewrite -(fA1 i c) /=; last lia.
      by rewrite /RA2; case: (b0 != 0) => //=; rewrite /setcol ifN //; lia.
    have dR2 : RA2.1 o o = R1 o o.
      by rewrite /RA2; case: (b0 != 0) => //=; rewrite /updm ifN //; lia.
    case: RA2 P2 fR2 fA2 dR2 => R2 A2 /= P2 fR2 fA2 dR2.
    case E1 : hreflV => [[r1 x1] b1].
    have P3 := refl_step Z1 true ho1 E1.
    set R3 := updm R2 _ _ _ in P3 *; set A3 := setcol _ _ A2 _ in P3 *; set Z3 := updm Z1 _ _ _ in P3 *.
    case: (P3) => /= U3 fR3 fA3 rl3 zk3 fZ3.
    eexists; split; first reflexivity.
    set Z4 := if mkZ then _ else _.
    have z4 k l : (k != o) || (l != o.+1) -> Z4 k l = Z3 k l.
      by move=> h; rewrite /Z4; case: (mkZ) => //; rewrite /updm ifN //; lia.
    have e1 : (o + 1 = o.+1)%N by lia.
    have e2 : (o + 2 = o.+1 + 1)%N by lia.
    split; rewrite /=.
    - apply: (@upd_join o 1 1 (o + 2) _ _ R2 A2 _ _ (fun k => Z1 k k)); [lia|lia| |exact: P2|].
        by move=> k hk; rewrite z4 ?fZ3 //=; lia.
      rewrite e1 e2; apply: upd_z U3 => k hk /=; rewrite z4 //; lia.
    - by move=> i c h; rewrite fR3 ?fR2 //=; lia.
    - by move=> i c h; rewrite fA3 ?fA2 //=; lia.
    - move=> c hc; case: (eqVneq c o) => [->|hco].
        by rewrite fR3 /= ?dR2; [apply: rl1|]; lia.
      by apply: rl3; lia.
    - move=> hm; apply: (@upZ01P o A3 Z3) => //.
      by rewrite /Z4 hm /updm !eqxx.
    - by move=> k l h; rewrite z4 ?fZ3 /= ?fZ1 //=; lia.
  set j1 := (n %/ 2)%N; have hj : (0 < j1 < n)%N by rewrite /j1; lia.
  have [[[R1 A1] Z1] [-> P1]] := IH o j1 true R A Z ltac:(lia) ltac:(lia) ltac:(lia); cbn [bindO].
  case: (P1) => /= U1 fR1 fA1 rl1 zk1 fZ1.
  set ZW := upZW M o j1 A1 R1 Z1; set R2 := subR _ _ _ _ _ _; set A2 := subA _ _ _ _ _ _ _; set Z2 := putZ _ _ _ _ _ _.
  have P2 : upd o j1 (o + n) R A R2 A2 (fun k => Z1 k k).
    apply: (up_trail _ _ U1 (zk1 isT)) => //; [lia|lia|] => i c hc.
    by rewrite fR1 ?fA1 //; lia.
  have [[[R3 A3] Z3] [-> P3]] := IH (o + j1)%N (n - j1)%N mkZ R2 A2 Z2 ltac:(lia) ltac:(lia) ltac:(lia); cbn [bindO].
  case: (P3) => /= U3 fR3 fA3 rl3 zk3 fZ3.
  eexists; split; first reflexivity.
  have en : (o + j1 + (n - j1) = o + n)%N by lia.
  set Z4 := if mkZ then _ else _.
  have z4 k l : ~~ ((o <= k < o + j1) && (o + j1 <= l < o + n))%N -> Z4 k l = Z3 k l.
    by move=> h; rewrite /Z4; case: (mkZ) => //; rewrite /upZ3 (negbTE h).
  have z2 k l : ~~ ((o <= k < o + j1) && (o + j1 <= l < o + n))%N -> Z2 k l = Z1 k l.
    by move=> h; rewrite /Z2 /putZ (negbTE h).
  split; rewrite /=.
  - have := @upd_join o j1 (n - j1) (o + n) R A R2 A2 R3 A3 (fun k => Z1 k k) (fun k => Z4 k k).
    rewrite en subnKC; last lia.
    apply=> //.
      by move=> k hk; rewrite z4 ?fZ3 /= ?z2 //; lia.
    have := U3; rewrite en /=; apply: upd_z => k hk; rewrite z4 //; lia.
  - move=> i c h; rewrite fR3 /=; last lia.
    by rewrite /R2 /subR ifN ?fR1 //; lia.
  - move=> i c h; rewrite fA3 /=; last lia.
    by rewrite /A2 /subA ifN ?fA1 //; lia.
  - move=> c hc; case: (ltnP c (o + j1)) => h; last by apply: rl3; lia.
    rewrite fR3 /=; last lia.
    by rewrite /R2 /subR ifN; [apply: rl1|]; lia.
  - move=> hm; rewrite /Z4 hm; have e3 : (j1 + (n - j1) = n)%N by lia.
    rewrite -{1 2}e3; apply: upZ3P; first lia.
      apply: (zok_ext _ _ (zk1 isT)) => [i k hk hi|k l hk hl] /=.
        rewrite /sA; case: ltnP => // h; rewrite fA3 /=; last lia.
        by rewrite /A2 /subA ifN //; lia.
      by rewrite fZ3 /= ?z2 //; lia.
    exact: (zk3).
  - by move=> k l h; rewrite z4 ?fZ3 /= ?z2 ?fZ1 //; lia.
Qed.

(** The first j columns are done. *)
Record bpost (j : nat) R0 A0 R A : Prop := BP {
  bp_upd : exists z, upd 0 j N R0 A0 R A z;
  bp_real : forall c, (c < j)%N -> R c c \is Num.real;
  bp_frR : forall i c, ~~ (i <= c < N)%N -> R i c = R0 i c;
  bp_frA : forall i c, ~~ ((i < M) && (c < N))%N -> A i c = A0 i c }.

Lemma bpost0 R A : bpost 0 R A R A.
Proof.
  split=> //; exists (fun _ => 0); split=> //.
  by move=> c hc; rewrite /= mul1mx.
Qed.

Lemma BlockUpP nb fuel j R0 A0 R A Z : (0 < nb)%N -> (N - j <= fuel)%N -> (j <= N)%N -> bpost j R0 A0 R A ->
  exists s, BlockUp nb under fuel M N j (R, A) Z = Ok s /\ bpost N R0 A0 s.1 s.2.
Proof.
  move=> hb; elim: fuel j R A Z => [|f IH] j R A Z hf hj B.
    have -> : BlockUp nb under 0 M N j (R, A) Z = Ok (R, A) by rewrite /= ltnNge (_ : (N <= j)%N) //; lia.
    by eexists; split; first reflexivity; have <- : j = N by lia.
  cbn [BlockUp]; case: (ltnP j N) => hjN; last first.
    by eexists; split; first reflexivity; have <- : j = N by lia.
  set j2 := minn N (j + nb); have hj2 : (j < j2 <= N)%N by rewrite /j2; lia.
  have [[[R1 A1] Z1] [-> P1]] := @RecUpP (j2 - j).+1 j (j2 - j) (j2 < N)%N R A Z ltac:(lia) ltac:(lia) ltac:(lia); cbn [bindO].
  case: P1 => /= U1 fR1 fA1 rl1 zk1 fZ1.
  have en : (j + (j2 - j) = j2)%N by lia.
  rewrite en in U1 fR1 fA1 rl1 fZ1.
  set RA2 := if (j2 < N)%N then _ else _.
  have P2 : [/\ upd j (j2 - j) N R A RA2.1 RA2.2 (fun k => Z1 k k),
               forall i c, ~~ ((j <= i < j2) && (i <= c < N))%N -> RA2.1 i c = R i c,
               forall i c, ~~ ((i < M) && (j <= c < N))%N -> RA2.2 i c = A i c
             & forall c, (c < j2)%N -> RA2.1 c c = R1 c c].
    rewrite /RA2; case: (ltnP j2 N) => h2 /=; last first.
      have e2 : j2 = N by lia.
      by move: U1 fR1 fA1; rewrite e2.
    split.
    - have := @up_trail j (j2 - j) N R A R1 A1 Z1; rewrite en; apply=> //; [lia|lia|exact: zk1|].
      by move=> i c hc; rewrite fR1 ?fA1 //; lia.
    - by move=> i c h; rewrite /subR ifN ?fR1 //; lia.
    - by move=> i c h; rewrite /subA ifN ?fA1 //; lia.
    - by move=> c h; rewrite /subR ifN //; lia.
  case: RA2 P2 => R2 A2 /= [U2 fR2 fA2 d2].
  apply: IH; [lia|lia|].
  have [[z U] rl fR fA] := B; split.
  - exists (fun k => if (k < j)%N then z k else Z1 k k).
    have := @upd_join 0 j (j2 - j) N R0 A0 R A R2 A2 z (fun k => if (k < j)%N then z k else Z1 k k).
    rewrite add0n en; apply=> //; [lia|lia| |].
      by move=> k hk; rewrite (_ : (k < j)%N) //; lia.
    by apply: upd_z U2 => k hk; rewrite ltnNge (_ : (j <= k)%N) //; lia.
  - move=> c hc; rewrite d2 //; case: (ltnP c j) => h; last by apply: rl1; lia.
    by rewrite fR1; [apply: rl|lia].
  - by move=> i c h; rewrite fR2 ?fR //; lia.
  - by move=> i c h; rewrite fA2 ?fA //; lia.
Qed.

Lemma QR_UpdateP nb R A Z0 : (0 < nb)%N ->
  exists s, QR_Update nb under M N R A Z0 = Ok s /\ bpost N R A s.1 s.2.
Proof.
  move=> hb; rewrite /QR_Update; case: (ltnP 0 N) => hN; last first.
    by eexists; split; first reflexivity; have e : N = 0%N by [lia]; have := bpost0 R A; rewrite e.
  case: ifP => _.
    by apply: (BlockUpP Z0 hb _ _ (bpost0 R A)); lia.
  have [[[R1 A1] Z1] [-> P1]] := @RecUpP N.+1 0 N false R A Z0 ltac:(lia) ltac:(lia) ltac:(lia).
  eexists; split; first reflexivity; case: P1 => /= U1 fR1 fA1 rl1 zk1 fZ1.
  split.
  - by exists (fun k => Z1 k k).
  - by move=> c hc; apply: rl1.
  - by move=> i c h; apply: fR1; lia.
  - by move=> i c h; apply: fA1; lia.
Qed.
End Stack.
