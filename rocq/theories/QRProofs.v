(** Proofs about Householder reflections and QR decomposition. *)
From Coq Require Import Ring Field.
From Verif Require Import Base FMat TriSolve RingTac Cplx Chol Givens QR.
From mathcomp Require Import all_ssreflect all_fingroup all_algebra zify.
Set Implicit Arguments. Unset Strict Implicit. Unset Printing Implicit Defensive.
Import GRing.Theory Num.Theory Order.Theory.
Local Open Scope ring_scope.

Section Alg.
Variable C : numClosedFieldType.
Add Field Cf : (mc_ft C).
Ltac mfield := mcnorm C; field.
Ltac mring := mcnorm C; ring.

(** Conjugate transpose. *)
Definition ctr m n (X : 'M[C]_(m, n)) : 'M[C]_(n, m) := \matrix_(i, j) (X j i)^*.
Lemma ctrK m n (X : 'M[C]_(m, n)) : ctr (ctr X) = X.
Proof. by apply/matrixP => i j; rewrite !mxE conjCK. Qed.
Lemma ctrM m n p (X : 'M[C]_(m, n)) (Y : 'M[C]_(n, p)) : ctr (X *m Y) = ctr Y *m ctr X.
Proof.
  apply/matrixP => i j; rewrite !mxE rmorph_sum; apply: eq_bigr => k _.
  by rewrite !mxE cjM mulrC.
Qed.
Lemma ctrB m n (X Y : 'M[C]_(m, n)) : ctr (X - Y) = ctr X - ctr Y.
Proof. by apply/matrixP => i j; rewrite !mxE cjD cjN. Qed.
Lemma ctrZ m n a (X : 'M[C]_(m, n)) : ctr (a *: X) = a^* *: ctr X.
Proof. by apply/matrixP => i j; rewrite !mxE cjM. Qed.
Lemma ctr1 n : ctr (1%:M : 'M[C]_n) = 1%:M.
Proof. by apply/matrixP => i j; rewrite !mxE eq_sym rmorph_nat. Qed.

Definition unit_mx n (U : 'M[C]_n) : Prop := ctr U *m U = 1%:M.
Lemma unit_mxC n (U : 'M[C]_n) : unit_mx U -> U *m ctr U = 1%:M.
Proof. exact: mulmx1C. Qed.
Lemma unit_mxM n (U V : 'M[C]_n) : unit_mx U -> unit_mx V -> unit_mx (U *m V).
Proof. by move=> h1 h2; rewrite /unit_mx ctrM mulmxA -(mulmxA (ctr V)) h1 mulmx1. Qed.
Lemma unit_mx1 n : unit_mx (1%:M : 'M[C]_n).
Proof. by rewrite /unit_mx ctr1 mulmx1. Qed.

Lemma det_rank1 n (u : 'cV[C]_n) (v : 'rV[C]_n) : \det (1%:M - u *m v) = 1 - (v *m u) 0 0.
Proof.
  have e : block_mx 1%:M 0 v 1%:M *m block_mx (1%:M - u *m v) (- u) 0 1%:M *m block_mx 1%:M 0 (- v) 1%:M
         = block_mx 1%:M (- u) 0 (1%:M - v *m u) :> 'M[C]_(n + 1).
    rewrite !mulmx_block !mul1mx !mulmx1 !mul0mx !mulmx0 !addr0 ?add0r.
    rewrite mulmxN mulNmx opprK subrK mulmxBr mulmx1 mulmxDl mul1mx mulmxN mulmxN.
    congr block_mx; last by rewrite addrC.
    by rewrite mulNmx opprK mulmxA addrA subrK subrr.
  have := congr1 determinant e; rewrite !det_mulmx !det_lblock !det_ublock !det1 !mul1r !mulr1 => ->.
  by rewrite det_mx11 !mxE eqxx.
Qed.

Variable M : nat.
(** I - z y y^dagger. *)
Definition Hm (z : C) (y : 'cV[C]_M) : 'M[C]_M := 1%:M - z *: (y *m ctr y).
Definition nsq (y : 'cV[C]_M) : C := \sum_i y i 0 * (y i 0)^*.
Lemma nsqE y : ctr y *m y = (nsq y)%:M.
Proof.
  by apply/matrixP => i j; rewrite !mxE !ord1 eqxx mulr1n; apply: eq_bigr => k _; rewrite !mxE mulrC.
Qed.
Lemma Hm0 y : Hm 0 y = 1%:M. Proof. by rewrite /Hm scale0r subr0. Qed.
Lemma ctrHm z y : ctr (Hm z y) = Hm z^* y.
Proof. by rewrite /Hm ctrB ctr1 ctrZ ctrM ctrK. Qed.
Lemma Hm_unit z y : z + z^* = z * z^* * nsq y -> unit_mx (Hm z y).
Proof.
  move=> h; rewrite /unit_mx ctrHm /Hm mulmxBr mulmx1 mulmxBl mul1mx.
  rewrite -scalemxAl -scalemxAr mulmxA -(mulmxA y) nsqE mul_mx_scalar -scalemxAl !scalerA.
  have -> : z^* * (z * nsq y) = z + z^* by rewrite h; mring.
  by move: (y *m ctr y) => W; apply/matrixP => i j; rewrite !mxE; mring.
Qed.
Lemma det_Hm z y : \det (Hm z y) = 1 - z * nsq y.
Proof. by rewrite /Hm scalemxAl det_rank1 -scalemxAr nsqE !mxE eqxx mulr1n. Qed.
Lemma Hm_fix z y (x : 'cV[C]_M) : ctr y *m x = 0 -> Hm z y *m x = x.
Proof. by move=> h; rewrite /Hm mulmxBl mul1mx -scalemxAl -mulmxA h mulmx0 scaler0 subr0. Qed.
End Alg.

Section Prod.
Variable C : numClosedFieldType.
Add Field Cf2 : (mc_ft C).
Ltac mfield := mcnorm C; field.
Ltac mring := mcnorm C; ring.
Variable M : nat.
Implicit Types (A Y Z m : fm C) (z : fv C).

(** The vector of the reflection kept in column k. *)
Definition yv A (k : nat) : 'cV[C]_M := \col_i yelt A i k.
Definition colv A (c : nat) : 'cV[C]_M := \col_i A i c.
(** Column c of R. *)
Definition rcol A (c : nat) : 'cV[C]_M := \col_i (if (i <= c)%N then A i c else 0).
(** The product of the reflections I - z_k y_k y_k^dagger, k from o on. *)
Fixpoint Pr A z (o n : nat) : 'M[C]_M :=
  if n is n'.+1 then Hm (z o) (yv A o) *m Pr A z o.+1 n' else 1%:M.

Lemma Pr_cat A z o n1 n2 : Pr A z o (n1 + n2) = Pr A z o n1 *m Pr A z (o + n1) n2.
Proof.
  elim: n1 o => [|n1 IH] o /=; first by rewrite mul1mx addn0.
  by rewrite IH mulmxA addSnnS.
Qed.
Lemma yv_ext A A' k : (forall i, (k < i < M)%N -> A i k = A' i k) -> yv A k = yv A' k.
Proof.
  move=> h; apply/matrixP => i j; rewrite !mxE /yelt; case: eqP => // _; case: ifP => // hk.
  by apply: h; rewrite hk ltn_ord.
Qed.
Lemma Pr_ext A A' z z' o n : (forall i k, (o <= k < o + n)%N -> (k < i < M)%N -> A i k = A' i k) ->
  (forall k, (o <= k < o + n)%N -> z k = z' k) -> Pr A z o n = Pr A' z' o n.
Proof.
  elim: n o => //= n IH o h1 h2; rewrite h2; last lia.
  rewrite (@yv_ext A A'); last by move=> i hi; apply: h1 => //; lia.
  by congr (_ *m _); apply: IH => [i k hk hi|k hk]; [apply: h1 => //|apply: h2]; lia.
Qed.
Lemma yv_perp A k (x : 'cV[C]_M) : (forall i : 'I_M, (k <= i)%N -> x i 0 = 0) -> ctr (yv A k) *m x = 0.
Proof.
  move=> h; apply/matrixP => i j; rewrite !mxE !ord1 big1 // => l _; rewrite !mxE /yelt.
  case: (leqP k l) => hk; first by rewrite h // mulr0.
  by rewrite ltn_eqF // ltnNge (ltnW hk) /= rmorph0 mul0r.
Qed.
Lemma Pr_fix A z o n (x : 'cV[C]_M) : (forall i : 'I_M, (o <= i)%N -> x i 0 = 0) -> Pr A z o n *m x = x.
Proof.
  elim: n o => [|n IH] o h /=; first by rewrite mul1mx.
  rewrite -mulmxA IH; last by move=> i hi; apply: h; lia.
  by apply: Hm_fix; apply: yv_perp.
Qed.
Lemma Pr_unit A z o n : (forall k, (o <= k < o + n)%N -> unit_mx (Hm (z k) (yv A k))) -> unit_mx (Pr A z o n).
Proof.
  elim: n o => [|n IH] o h /=; first exact: unit_mx1.
  by apply: unit_mxM; [apply: h; lia|apply: IH => k hk; apply: h; lia].
Qed.

(** Columns [o,o+n) of the array A0 are reduced, the columns up to e carried along. *)
Record qinv (o n e : nat) A0 A z (d0 d : C) : Prop := QI {
  qi_unit : forall k, (o <= k < o + n)%N -> unit_mx (Hm (z k) (yv A k));
  qi_done : forall c, (o <= c < o + n)%N -> Pr A z o n *m rcol A c = colv A0 c;
  qi_trail : forall c, (o + n <= c < e)%N -> Pr A z o n *m colv A c = colv A0 c;
  qi_frame : forall i c, ~~ ((o <= i < M) && (o <= c < e))%N -> A i c = A0 i c;
  qi_real : forall c, (o <= c < o + n)%N -> A c c \is Num.real;
  qi_zero : forall k i, (o <= k < o + n)%N -> z k = 0 -> (k < i < M)%N -> A i k = 0;
  qi_det : d = d0 * \det (Pr A z o n) }.

Lemma qinv_ext o n e A0 A z z' d0 d : (forall k, (o <= k < o + n)%N -> z k = z' k) ->
  qinv o n e A0 A z d0 d -> qinv o n e A0 A z' d0 d.
Proof.
  move=> h [h1 h2 h3 h4 h5 h6 h7]; have e1 : Pr A z o n = Pr A z' o n by apply: Pr_ext.
  split=> //; rewrite -?e1 // => k; first by move=> hk; rewrite -h //; apply: h1.
  by move=> i hk; rewrite -h //; apply: h6.
Qed.

Lemma rcol_fr A A' c o : (c < o)%N -> (forall i, (i <= c)%N -> A i c = A' i c) -> rcol A c = rcol A' c.
Proof. by move=> hc h; apply/matrixP => i j; rewrite !mxE; case: ifP => // hi; apply: h. Qed.

Lemma qinv_join o n1 n2 e A0 A1 A2 z1 z2 d0 d1 d2 : (o + n1 + n2 <= e)%N ->
  (forall k, (o <= k < o + n1)%N -> z1 k = z2 k) ->
  qinv o n1 e A0 A1 z1 d0 d1 -> qinv (o + n1) n2 e A1 A2 z2 d1 d2 ->
  qinv o (n1 + n2) e A0 A2 z2 d0 d2.
Proof.
  move=> he hz /(qinv_ext hz) [u1 f1 t1 fr1 r1 z01 D1] [u2 f2 t2 fr2 r2 z02 D2].
  have hfr i c : (c < o + n1)%N -> A2 i c = A1 i c by move=> hc; apply: fr2; lia.
  have ye k : (k < o + n1)%N -> yv A2 k = yv A1 k by move=> hk; apply: yv_ext => i _; apply: hfr.
  have pe : Pr A2 z2 o n1 = Pr A1 z2 o n1 by apply: Pr_ext => // i k hk _; apply: hfr; lia.
  split.
  - move=> k hk; case: (ltnP k (o + n1)) => h; first by rewrite ye //; apply: u1; lia.
    by apply: u2; lia.
  - move=> c hc; rewrite Pr_cat pe -mulmxA; case: (ltnP c (o + n1)) => h.
      have -> : rcol A2 c = rcol A1 c by apply: (rcol_fr h) => i _; apply: hfr.
      rewrite (@Pr_fix A2 z2 (o + n1)); first by apply: f1; lia.
      by move=> i hi; rewrite mxE; case: ifP => // h3; exfalso; lia.
    by rewrite f2; [apply: t1; lia|lia].
  - by move=> c hc; rewrite Pr_cat pe -mulmxA t2; [apply: t1; lia|lia].
  - by move=> i c h; rewrite fr2; [apply: fr1 => //|lia].
  - move=> c hc; case: (ltnP c (o + n1)) => h; first by rewrite hfr //; apply: r1; lia.
    by apply: r2; lia.
  - move=> k i hk h1 h2; case: (ltnP k (o + n1)) => h; first by rewrite hfr //; apply: z01 => //; lia.
    by apply: z02 => //; lia.
  - by rewrite D2 D1 Pr_cat pe det_mulmx mulrA.
Qed.

(** Multiplying further columns by the inverse of the product. *)
Lemma qinv_trail o n e A0 A A' z d0 d : (o + n <= e)%N -> qinv o n (o + n) A0 A z d0 d ->
  (forall c, (o + n <= c < e)%N -> colv A' c = ctr (Pr A z o n) *m colv A c) ->
  (forall i c, ~~ ((o <= i < M) && (o + n <= c < e))%N -> A' i c = A i c) ->
  qinv o n e A0 A' z d0 d.
Proof.
  move=> he [u f t fr r z0 D] hc hf.
  have hfr i c : (c < o + n)%N -> A' i c = A i c by move=> h; apply: hf; lia.
  have pe : Pr A' z o n = Pr A z o n by apply: Pr_ext => // i k hk _; apply: hfr; lia.
  have U := Pr_unit u.
  split.
  - by move=> k hk; rewrite (@yv_ext A' A); [apply: u|move=> i _; apply: hfr; lia].
  - move=> c h; rewrite pe -f //; congr (_ *m _); apply: (@rcol_fr _ _ _ c.+1) => // i _; apply: hfr; lia.
  - move=> c h; rewrite pe hc // mulmxA (unit_mxC U) mul1mx.
    by apply/matrixP => i j; rewrite !mxE; apply: fr; lia.
  - by move=> i c h; rewrite hf; [apply: fr; lia|lia].
  - by move=> c h; rewrite hfr; [apply: r|lia].
  - by move=> k i hk h1 h2; rewrite hfr; [apply: z0|lia].
  - by rewrite pe.
Qed.
End Prod.

Section Reflect.
Variable C : numClosedFieldType.
Add Field Cf3 : (mc_ft C).
Ltac mfield := mcnorm C; field.
Ltac mring := mcnorm C; ring.
Variable M : nat.
Variable under : C -> bool.
Implicit Types (A Y Z m : fm C) (z : fv C).

Lemma sum_ord_nat (f : nat -> C) a : (a <= M)%N -> (forall i, (i < a)%N -> f i = 0) ->
  \sum_(i < M) f i = \sum_(a <= i < M) f i.
Proof.
  move=> ha h; rewrite -(big_mkord xpredT) (big_cat_nat _ (n := a)) //= [X in X + _]big_nat big1 ?add0r //.
Qed.

Lemma tABS2_real (x : C) : tABS2 x \is Num.real.
Proof. by rewrite realD // normr_real. Qed.
(** The scale bounds every element. *)
Lemma foldmax A k s x : 0 <= x -> let r := foldl (fun s i => if s < tABS2 (A i k) then tABS2 (A i k) else s) x s in
  x <= r /\ (forall i, i \in s -> tABS2 (A i k) <= r).
Proof.
  elim: s x => [|i s IH] x hx /=; first by split.
  set x' := (if _ then _ else _).
  have [h0 h1 h2] : [/\ 0 <= x', x <= x' & tABS2 (A i k) <= x'].
    rewrite /x'; case: ifP => h; first by split=> //; [apply: le_trans hx (ltW h)|exact: ltW].
    by split=> //; rewrite real_leNgt ?h // ?tABS2_real // ger0_real.
  have [h3 h4] := IH x' h0; split; first exact: le_trans h3.
  by move=> j; rewrite inE => /orP [/eqP ->|/h4 //]; apply: le_trans h3.
Qed.
Lemma hscaleP k A : 0 <= hscale M k A /\
  (hscale M k A = 0 -> forall i, (k <= i < M)%N -> A i k = 0).
Proof.
  rewrite /hscale; have [h1 h2] := @foldmax A k (iota k.+1 (M - k.+1)) 0 (lexx 0).
  move: h1 h2; set s := foldl _ _ _ => h1 h2; rewrite tABSE; case: ifP => h.
    split=> // e; move: h; rewrite e => h; by have := le_lt_trans h1 h; rewrite ltxx.
  split=> // e i hi; case: (eqVneq i k) => [->|hk].
    apply/eqP; rewrite -normr_eq0; move: h; rewrite e lt_neqAle normr_ge0 andbT eq_sym.
    by move/negbFE.
  have := h2 i; rewrite mem_iota e => /(_ _) h3; apply/eqP; rewrite -tABS2_eq0 eq_le h3 /=; last lia.
  by rewrite addr_ge0.
Qed.

(** The algebra of one reflection: u is the scaled vector, y its new first element. *)
Lemma reflectE (u0 y n2 : C) : y \is Num.real -> y != 0 -> u0 - y != 0 ->
  n2 = y ^+ 2 ->
  let v0 := u0 - y in
  let b := tDIV (tNORM v0) (n2 - y * u0) in b = - v0^* / y.
Proof.
  move=> hr hy hv hn /=; rewrite /tDIV tNORM_conj.
  have e : n2 - y * u0 = - (y * (u0 - y)) by rewrite hn; mring.
  rewrite e tINVE; last by rewrite oppr_eq0 mulf_neq0.
  by mfield; split; apply/eqP => //; rewrite oppr_eq0; apply: mulf_neq0.
Qed.

Lemma setbelow_fr o r (x : fv C) A i c : ~~ ((o <= i < M) && (o <= c < o + 1))%N -> setbelow M o r x A i c = A i c.
Proof. by move=> h; rewrite /setbelow; case: ifP => // h1; exfalso; lia. Qed.
Lemma setbelow_in o r (x : fv C) A i : (o < i < M)%N -> setbelow M o r x A i o = x i.
Proof.
  move=> h; have h1 : (o <= i < M)%N by lia.
  by rewrite /setbelow eqxx h1 gtn_eqF //; lia.
Qed.
Lemma setbelow_d o r (x : fv C) A : (o < M)%N -> setbelow M o r x A o o = r.
Proof. by move=> h; rewrite /setbelow !eqxx leqnn h. Qed.

Lemma nsq_yv o r (x : fv C) A : (o < M)%N ->
  nsq (yv M (setbelow M o r x A) o) = 1 + \sum_(o.+1 <= i < M) x i * (x i)^*.
Proof.
  move=> ho; rewrite /nsq.
  rewrite (eq_bigr (fun i : 'I_M => yelt (setbelow M o r x A) i o * (yelt (setbelow M o r x A) i o)^*)); last by move=> i _; rewrite !mxE.
  rewrite (@sum_ord_nat (fun i => yelt (setbelow M o r x A) i o * (yelt (setbelow M o r x A) i o)^*) o); last 2 first.
  - exact: ltnW.
  - by move=> i hi; rewrite /yelt ltn_eqF // ltnNge (ltnW hi) /= mul0r.
  rewrite big_ltn // /yelt eqxx rmorph1 mulr1; congr (_ + _); apply: eq_big_nat => i hi.
  have hi2 : (o < i)%N by lia.
  by rewrite gtn_eqF // hi2 setbelow_in.
Qed.

Lemma hrefl_core o A r (x : fv C) b d d' z : (o < M)%N -> z o = b^* -> r \is Num.real ->
  let n := 1 + \sum_(o.+1 <= i < M) x i * (x i)^* in
  b + b^* = b * b^* * n ->
  r - b^* * r = A o o -> (forall i, (o < i < M)%N -> - (b^* * x i * r) = A i o) ->
  (b = 0 -> forall i, (o < i < M)%N -> x i = 0) ->
  d' = d * (1 - b^* * n) ->
  qinv M o 1 (o + 1) A (setbelow M o r x A) z d d'.
Proof.
  move=> ho hz hr n hu h0 hx hb hd; have hn := @nsq_yv o r x A ho; rewrite -/n in hn.
  have ko k : (o <= k < o + 1)%N -> k = o by lia.
  have HU : unit_mx (Hm (z o) (yv M (setbelow M o r x A) o)).
    by apply: Hm_unit; rewrite hz conjCK hn addrC hu; mring.
  split.
  - by move=> k /ko ->.
  - move=> c /ko -> /=; rewrite mulmx1 /Hm mulmxBl mul1mx -scalemxAl -mulmxA.
    have -> : ctr (yv M (setbelow M o r x A) o) *m rcol M (setbelow M o r x A) o = r%:M.
      apply/matrixP => i j; rewrite !ord1 !mxE eqxx mulr1n.
      rewrite (bigD1 (Ordinal ho)) //= big1 ?addr0; last first.
        move=> l hl; rewrite !mxE; case: ifP => hlo; last by rewrite mulr0.
        have hlt : (l < o)%N by rewrite ltn_neqAle hlo andbT; apply: contra hl => /eqP e; apply/eqP; exact: val_inj.
        by rewrite /yelt ltn_eqF // ltnNge hlo /= rmorph0 mul0r.
      by rewrite !mxE /= leqnn /yelt eqxx rmorph1 mul1r setbelow_d.
    rewrite mul_mx_scalar; apply/matrixP => i j; rewrite !mxE hz /yelt.
    case: (ltngtP (i : nat) o) => hi.
    + by rewrite !mulr0 subr0 setbelow_fr //; lia.
    + by rewrite setbelow_in ?ltn_ord ?hi // sub0r -(hx i) ?hi ?ltn_ord //; mring.
    + by rewrite hi setbelow_d // -h0; mring.
  - by move=> c hc; exfalso; lia.
  - by move=> i c h; apply: setbelow_fr.
  - by move=> c /ko ->; rewrite setbelow_d.
  - move=> k i /ko -> hz0 hi; rewrite setbelow_in //; apply: hb => //.
    by rewrite -(conjCK b) -hz hz0 rmorph0.
  - by rewrite /= mulmx1 det_Hm hn hz.
Qed.

Lemma cj0 : (0 : C)^* = 0. Proof. exact: conjC0. Qed.

Lemma hrefl_id o A d z : (o < M)%N -> z o = 0^* -> A o o \is Num.real -> (forall i, (o < i < M)%N -> A i o = 0) ->
  qinv M o 1 (o + 1) A (setbelow M o (A o o) (fun _ => 0) A) z d d.
Proof.
  move=> ho hz hr h; apply: (@hrefl_core o A (A o o) (fun _ => 0) 0 d d z ho hz hr).
  - by rewrite cj0 !mul0r addr0.
  - by rewrite cj0 mul0r subr0.
  - by move=> i hi; rewrite cj0 !mul0r oppr0 h.
  - by [].
  - by rewrite cj0 mul0r subr0 mulr1.
Qed.

Lemma sum0_nat (f : nat -> C) a b : (forall i, 0 <= f i) -> \sum_(a <= i < b) f i = 0 ->
  forall i, (a <= i < b)%N -> f i = 0.
Proof.
  move=> h0 h i hi; move: h; rewrite (big_cat_nat _ (n := i)) /=; [|lia|lia].
  rewrite [X in _ + X]big_ltn; last lia.
  have p1 : 0 <= \sum_(a <= j < i) f j by apply: sumr_ge0.
  have p2 : 0 <= \sum_(i.+1 <= j < b) f j by apply: sumr_ge0.
  move/eqP; rewrite paddr_eq0 //; last by rewrite addr_ge0.
  by case/andP => _; rewrite paddr_eq0 // => /andP [/eqP].
Qed.

Lemma hreflectP o A d A' b d' z : (o < M)%N -> hreflect under M o A d = (A', b, d') -> z o = b^* ->
  qinv M o 1 (o + 1) A A' z d d'.
Proof.
  move=> ho; rewrite /hreflect; have [hs0 hs1] := hscaleP o A.
  move: hs0 hs1; set s := hscale M o A => hs0 hs1.
  case: eqP => [es|/eqP es].
    have h0 := hs1 es; case=> <- <- <- hz.
    have e : A o o = 0 by apply: h0; rewrite leqnn.
    have H := @hrefl_id o A d z ho hz; rewrite e in H; apply: H; first exact: real0.
    by move=> i hi; apply: h0; lia.
  have sr : s \is Num.real by rewrite ger0_real.
  rewrite tINVE //; set nx := \sum_(_ <= _ < _) _.
  have nx0 : 0 <= nx by apply: sumr_ge0 => i _; rewrite tNORM_norm exprn_ge0.
  case: ifP => [/andP [/eqP h1 /eqP h2]|hne].
    have hA i : (o < i < M)%N -> A i o = 0.
      move=> hi; have : tNORM (A i o * s^-1) = 0.
        by apply: (sum0_nat _ h1) => // j; rewrite tNORM_norm exprn_ge0.
      by rewrite tNORM_norm => /eqP; rewrite expf_eq0 /= normr_eq0 mulf_eq0 invr_eq0 (negbTE es) orbF => /eqP.
    case=> <- <- <- hz; apply: hrefl_id => //; exact/Creal_ImP.
  set u0 := A o o * s^-1; set n2 := nx + _; set y := if _ then _ else _.
  have cs : s^* = s by exact: realcj.
  have ea : tABS (A o o) * s^-1 * (tABS (A o o) * s^-1) = u0 * u0^*.
    rewrite tABSE /u0 cjM cjV cs.
    have -> : A o o / s * ((A o o)^* / s) = (A o o * (A o o)^*) / s / s by mfield; exact/eqP.
    by rewrite -normCK; mfield; exact/eqP.
  have p0 : 0 <= u0 * u0^* by exact: mul_conjC_ge0.
  have en : n2 = nx + u0 * u0^* by rewrite /n2 ea.
  have n2p : 0 < n2.
    rewrite en lt_neqAle addr_ge0 // andbT eq_sym paddr_eq0 // mul_conjC_eq0.
    apply: contraFN hne => /andP [-> /eqP]; rewrite /u0 => /eqP.
    by rewrite mulf_eq0 invr_eq0 (negbTE es) orbF => /eqP ->; rewrite raddf0 eqxx.
  have np : 0 < sqrtC n2 by rewrite sqrtC_gt0.
  have y2 : y * y = n2 by rewrite /y -[RHS]sqrtCK expr2; case: ifP => // _; rewrite mulrNN.
  have yr : y \is Num.real by rewrite /y; case: ifP => _; rewrite ?realN gtr0_real.
  have y0 : y != 0 by apply: contraTneq n2p => e; rewrite -y2 e mul0r ltxx.
  have v0n : u0 - y != 0.
    rewrite subr_eq0; apply/eqP => e; have e1 : 'Re u0 = y by rewrite e; apply: realre.
    move: e1; rewrite /y; case: ifP => h e1.
      by move: h; rewrite e1 oppr_gt0 => h; have := lt_trans np h; rewrite ltxx.
    by move: h; rewrite e1 np.
  have eb := @reflectE u0 y n2 yr y0 v0n (esym (etrans (expr2 y) y2)); rewrite /= in eb.
  rewrite eb tINVE //; set v0 := u0 - y; set bb := - v0^* / y.
  set X := if _ then _ else _ => -[<- <- <-] hz.
  have cy : y^* = y by exact: realcj.
  have cv0 : v0^* = u0^* - y by rewrite /v0 cjD cjN cy.
  have v0c : v0^* != 0 by rewrite conjC_eq0.
  have cb : bb^* = - v0 / y by rewrite /bb cjM cjN cjV conjCK cy.
  have eX i : X i = A i o / (v0 * s).
    by rewrite /X; case: ifP => _; mfield; split; exact/eqP.
  have esum : \sum_(o.+1 <= i < M) X i * (X i)^* = nx / (v0 * v0^*).
    rewrite /nx mulr_suml; apply: eq_big_nat => i hi.
    rewrite eX tNORM_conj !cjM !cjV cjM cs; mfield; repeat split; exact/eqP.
  have hbn : bb != 0 by rewrite /bb mulf_neq0 ?oppr_eq0 ?invr_eq0.
  have hbc : bb^* != 0 by rewrite conjC_eq0.
  have enx : nx = y * y - u0 * u0^* by rewrite y2 en addrK.
  have key : bb + bb^* = bb * bb^* * (1 + \sum_(o.+1 <= i < M) X i * (X i)^*).
    rewrite esum enx cb /bb; move: v0c; rewrite cv0 /v0 => v0c.
    by mfield; repeat split; exact/eqP.
  apply: (@hrefl_core o A (y * s) X bb) => //.
  - by rewrite realM.
  - by rewrite cb /v0 /u0; mfield; split; exact/eqP.
  - by move=> i hi; rewrite eX cb; mfield; repeat split; exact/eqP.
  - by move=> e; move: hbn; rewrite e eqxx.
  - have -> : 1 - bb^* * (1 + \sum_(o.+1 <= i < M) X i * (X i)^*) = - bb^* / bb.
      have -> : bb^* * (1 + \sum_(o.+1 <= i < M) X i * (X i)^*) = (bb + bb^*) / bb.
        by rewrite key; mfield; exact/eqP.
      by mfield; exact/eqP.
    case: (eqVneq d 0) => [->|_]; first by rewrite ?eqxx /= mul0r.
    case: eqP => [/Creal_ImP /realcj e|_] /=; first by rewrite e mulNr divff // mulrN1.
    by rewrite tNORM_conj cjM; mfield; repeat split; exact/eqP.
Qed.
End Reflect.

Section Block.
Variable C : numClosedFieldType.
Add Field Cf4 : (mc_ft C).
Ltac mfield := mcnorm C; field.
Ltac mring := mcnorm C; ring.
Variable M : nat.
Implicit Types (A Y Z m : fm C) (z : fv C).

Lemma sum_shift (f : nat -> C) o n : \sum_(o <= l < o + n) f l = \sum_(l < n) f (o + l)%N.
Proof.
  rewrite -{1}[o]add0n big_addn addKn big_mkord; apply: eq_bigr => i _; by rewrite addnC.
Qed.

Lemma hlmultE k c0 c1 A b m c : (k < M)%N -> (c0 <= c < c1)%N ->
  colv M (hlmult M k c0 c1 (fun i => A i k) b m) c = Hm b (yv M A k) *m colv M m c.
Proof.
  move=> hk hc; rewrite /hlmult; case: (eqVneq b 0) => [->|hb] /=; first by rewrite Hm0 mul1mx.
  rewrite /Hm mulmxBl mul1mx -scalemxAl -mulmxA.
  have -> : ctr (yv M A k) *m colv M m c = (\sum_(k.+1 <= i < M) (A i k)^* * m i c + m k c)%:M.
    apply/matrixP => i j; rewrite !ord1 !mxE eqxx mulr1n.
    rewrite (eq_bigr (fun i : 'I_M => (yelt A i k)^* * m i c)); last by move=> l _; rewrite !mxE.
    rewrite (@sum_ord_nat _ _ (fun i => (yelt A i k)^* * m i c) k); last 2 first.
    - exact: ltnW.
    - by move=> l hl; rewrite /yelt ltn_eqF // ltnNge (ltnW hl) /= conjC0 mul0r.
    rewrite big_ltn // addrC /yelt eqxx conjC1 mul1r; congr (_ + _); apply: eq_big_nat => l hl.
    have hl2 : (k < l)%N by lia.
    by rewrite gtn_eqF // hl2.
  rewrite mul_mx_scalar; apply/matrixP => i j; rewrite !mxE hc /= ltn_ord andbT /yelt.
  case: (ltngtP (i : nat) k) => hi /=.
  - by rewrite !mulr0 subr0.
  - by congr (_ - _); mring.
  - by rewrite hi; congr (_ - _); mring.
Qed.
Lemma hlmult_fr k c0 c1 (v : fv C) b m i c : ~~ ((k <= i < M) && (c0 <= c < c1))%N ->
  hlmult M k c0 c1 v b m i c = m i c.
Proof. by move=> h; rewrite /hlmult; case: ifP => // _; rewrite andbC (negbTE h). Qed.

Definition Ymx A (o n : nat) : 'M[C]_(M, n) := \matrix_(i, k) yelt A i (o + k)%N.
Definition Zmx Z (o n : nat) : 'M[C]_n := \matrix_(k, l) zelt Z (o + k)%N (o + l)%N.

Lemma YtE Y m o n k c : (o + n <= M)%N -> (o <= k < o + n)%N ->
  \sum_(o <= i < o + n) (yelt Y i k)^* * m i c + \sum_(o + n <= i < M) (Y i k)^* * m i c
  = \sum_(i < M) (yelt Y i k)^* * m i c.
Proof.
  move=> hn hk; rewrite (@sum_ord_nat _ _ (fun i => (yelt Y i k)^* * m i c) o); last 2 first.
  - lia.
  - move=> l hl; have h1 : (l < k)%N by lia.
    by rewrite /yelt ltn_eqF // ltnNge (ltnW h1) /= conjC0 mul0r.
  rewrite [RHS](big_cat_nat _ (n := (o + n)%N)) /=; [|lia|lia].
  congr (_ + _); apply: eq_big_nat => i hi; have h1 : (k < i)%N by lia.
  by rewrite /yelt gtn_eqF // h1.
Qed.

Lemma blockmultE zt o n c0 c1 Y Z m c : (o + n <= M)%N -> (c0 <= c < c1)%N ->
  colv M (blockmult zt M o n c0 c1 Y Z m) c =
  (1%:M - Ymx Y o n *m (if zt then ctr (Zmx Z o n) else Zmx Z o n) *m ctr (Ymx Y o n)) *m colv M m c.
Proof.
  move=> hn hc; rewrite mulmxBl mul1mx -!mulmxA; set ZW := _ *m (ctr _ *m _).
  have eZW k : (o <= k < o + n)%N -> forall h : (k - o < n)%N,
    \sum_(o <= l < o + n) (if zt then (zelt Z l k)^* else zelt Z k l) *
      (\sum_(o <= i < o + n) (yelt Y i l)^* * m i c + \sum_(o + n <= i < M) (Y i l)^* * m i c) = ZW (Ordinal h) 0.
    move=> hk h; rewrite sum_shift /ZW mxE; apply: eq_bigr => l _.
    rewrite YtE //; last by have := ltn_ord l; lia.
    congr (_ * _); last by rewrite mxE; apply: eq_bigr => i _; rewrite !mxE.
    have e : (o + (k - o) = k)%N by lia.
    by case: (zt); rewrite !mxE /= e.
  apply/matrixP => i j; rewrite !ord1 !mxE /blockmult hc /=; have hiM := ltn_ord i.
  case: (leqP o i) => ho /=; last first.
    rewrite big1 ?subr0 // => k _; rewrite mxE /yelt.
    have h1 : (i < o + k)%N by lia.
    by rewrite ltn_eqF // ltnNge (ltnW h1) /= mul0r.
  rewrite hiM; have es : forall g : nat -> C, (forall k, (o <= k < o + n)%N -> g k = yelt Y i k) ->
    \sum_(o <= k < o + n) g k * (\sum_(o <= l < o + n) (if zt then (zelt Z l k)^* else zelt Z k l) *
      (\sum_(o <= i < o + n) (yelt Y i l)^* * m i c + \sum_(o + n <= i < M) (Y i l)^* * m i c))
    = \sum_k Ymx Y o n i k * ZW k 0.
    move=> g hg; rewrite sum_shift; apply: eq_bigr => k _; have hk := ltn_ord k.
    have h : (o + k - o < n)%N by lia.
    rewrite hg; last lia.
    rewrite (eZW (o + k)%N _ h); last lia.
    by rewrite [Ymx _ _ _ _ _]mxE; congr (_ * ZW _ _); apply: val_inj => /=; lia.
  case: ifP => h1; first by rewrite (es (fun k => yelt Y i k)).
  rewrite (es (fun k => Y i k)) // => k hk.
  have h2 : (k < i)%N by lia.
  by rewrite /yelt gtn_eqF // h2.
Qed.
Lemma blockmult_fr zt o n c0 c1 Y Z m i c : ~~ ((o <= i < M) && (c0 <= c < c1))%N ->
  blockmult zt M o n c0 c1 Y Z m i c = m i c.
Proof. by move=> h; rewrite /blockmult andbC (negbTE h). Qed.

(** Z is right for the block [o,o+n). *)
Definition zok A Z (o n : nat) : Prop :=
  1%:M - Ymx A o n *m Zmx Z o n *m ctr (Ymx A o n) = Pr M A (fun k => Z k k) o n.

Lemma zok1 A Z o : zok A Z o 1.
Proof.
  rewrite /zok /= mulmx1 /Hm; congr (_ - _); apply/matrixP => i j; rewrite !mxE !big_ord1 !mxE !big_ord1 !mxE !addn0.
  by rewrite /zelt leqnn; mring.
Qed.

Lemma zok_join A Z o n1 n2 : zok A Z o n1 -> zok A Z (o + n1) n2 ->
  (\matrix_(k < n1, l < n2) Z (o + k)%N (o + n1 + l)%N) =
    - (Zmx Z o n1 *m (ctr (Ymx A o n1) *m Ymx A (o + n1) n2) *m Zmx Z (o + n1) n2) ->
  zok A Z o (n1 + n2).
Proof.
  rewrite /zok Pr_cat => <- <- h3.
  have eY : Ymx A o (n1 + n2) = row_mx (Ymx A o n1) (Ymx A (o + n1) n2).
    apply/matrixP => i k; rewrite !mxE; case: splitP => l e; rewrite !mxE e //.
    by rewrite addnA.
  set Z3 := (\matrix_(k, l) _) in h3.
  have eZ : Zmx Z o (n1 + n2) = block_mx (Zmx Z o n1) Z3 0 (Zmx Z (o + n1) n2).
    apply/matrixP => k l; rewrite !mxE; case: splitP => k' ek; rewrite !mxE; case: splitP => l' el; rewrite !mxE /zelt ek el ?addnA //.
    - by have -> : (o + k' <= o + n1 + l')%N by have := ltn_ord k'; lia.
    - by have -> : (o + n1 + k' <= o + l')%N = false by have := ltn_ord l'; lia.
  have eYt : ctr (Ymx A o (n1 + n2)) = col_mx (ctr (Ymx A o n1)) (ctr (Ymx A (o + n1) n2)).
    rewrite eY; apply/matrixP => k i; rewrite !mxE; case: splitP => l e; rewrite !mxE //.
  rewrite eYt eY eZ mul_row_block mulmx0 addr0 mul_row_col h3.
  rewrite mulmxBr mulmx1 mulmxBl mul1mx mulmxDl mulmxN mulNmx !mulmxA.
  set a := _ *m _ *m ctr (Ymx A o n1); set b := _ *m _ *m ctr (Ymx A (o + n1) n2); set c := _ *m _.
  by apply/matrixP => i j; rewrite !mxE; mring.
Qed.
End Block.

Section Rec.
Variable C : numClosedFieldType.
Add Field Cf5 : (mc_ft C).
Ltac mfield := mcnorm C; field.
Ltac mring := mcnorm C; ring.
Variable M : nat.
Variable under : C -> bool.
Implicit Types (A Y Z m : fm C) (z : fv C).

Lemma hreflectMP o e A d A' b d' z : (o < M)%N -> (o < e)%N -> hreflectM under M o e A d = (A', b, d') -> z o = b^* ->
  qinv M o 1 e A A' z d d'.
Proof.
  move=> ho he; rewrite /hreflectM; case E : hreflect => [[A1 b1] d1] -[<- <- <-] hz.
  have Q := hreflectP ho E hz; apply: (qinv_trail _ Q); first lia.
  - move=> c hc; rewrite /= mulmx1 ctrHm hz conjCK; case: (eqVneq b1 0) => [->|hb] /=.
      by rewrite Hm0 mul1mx.
    by apply: hlmultE => //; lia.
  - by move=> i c h; case: ifP => // _; apply: hlmult_fr; move: h; rewrite addn1.
Qed.

Lemma zok_ext A A' Z Z' o n : (forall i k, (o <= k < o + n)%N -> (k < i < M)%N -> A i k = A' i k) ->
  (forall k l, (o <= k < o + n)%N -> (o <= l < o + n)%N -> Z k l = Z' k l) ->
  zok M A Z o n -> zok M A' Z' o n.
Proof.
  move=> hA hZ; rewrite /zok (@Pr_ext _ _ A A' _ (fun k => Z' k k)) => //; last by move=> k hk; apply: hZ.
  have -> : Ymx M A o n = Ymx M A' o n.
    apply/matrixP => i k; rewrite !mxE /yelt; case: ltngtP => // h; apply: hA; last by rewrite h ltn_ord.
    by have := ltn_ord k; lia.
  have -> : Zmx Z o n = Zmx Z' o n => //.
  apply/matrixP => k l; rewrite !mxE /zelt; case: ifP => // _.
  by have := ltn_ord k; have := ltn_ord l => h1 h2; apply: hZ; lia.
Qed.

Lemma WE Y o j1 n2 t l : (o + (j1 + n2) <= M)%N -> (o <= t < o + j1)%N -> (o + j1 <= l < o + (j1 + n2))%N ->
  \sum_(o + j1 <= i < o + (j1 + n2)) (Y i t)^* * yelt Y i l + \sum_(o + (j1 + n2) <= i < M) (Y i t)^* * Y i l
  = \sum_(i < M) (yelt Y i t)^* * yelt Y i l.
Proof.
  move=> hn ht hl; rewrite (@sum_ord_nat _ _ (fun i => (yelt Y i t)^* * yelt Y i l) (o + j1)); last 2 first.
  - lia.
  - move=> i hi; have h1 : (i < l)%N by lia.
    by rewrite [yelt Y i l]/yelt ltn_eqF // ltnNge (ltnW h1) /= mulr0.
  rewrite [RHS](big_cat_nat _ (n := (o + (j1 + n2))%N)) /=; [|lia|lia].
  congr (_ + _); apply: eq_big_nat => i hi; have h1 : (t < i)%N by lia.
    by rewrite [yelt Y i t]/yelt gtn_eqF // h1.
  have h2 : (l < i)%N by lia.
  by rewrite /yelt !gtn_eqF // h1 h2.
Qed.

Lemma makeZ3P o j1 n2 A Z : (o + (j1 + n2) <= M)%N -> zok M A Z o j1 -> zok M A Z (o + j1) n2 ->
  zok M A (makeZ3 M o j1 (j1 + n2) A Z) o (j1 + n2).
Proof.
  move=> hn z1 z2; set Z' := makeZ3 _ _ _ _ _ _.
  have e1 k l : ~~ ((o <= k < o + j1) && (o + j1 <= l < o + (j1 + n2)))%N -> Z' k l = Z k l.
    by move=> h; rewrite /Z' /makeZ3 (negbTE h).
  have z1' : zok M A Z' o j1 by apply: (zok_ext _ _ z1) => // k l hk hl; rewrite e1 //; lia.
  have z2' : zok M A Z' (o + j1) n2 by apply: (zok_ext _ _ z2) => // k l hk hl; rewrite e1 //; lia.
  apply: zok_join => //.
  have eZ1 : Zmx Z' o j1 = Zmx Z o j1.
    apply/matrixP => k l; rewrite !mxE /zelt e1 //; have := ltn_ord l; lia.
  have eZ2 : Zmx Z' (o + j1) n2 = Zmx Z (o + j1) n2.
    apply/matrixP => k l; rewrite !mxE /zelt e1 //; lia.
  rewrite eZ1 eZ2; apply/matrixP => k l; rewrite !mxE /Z' /makeZ3.
  have hk := ltn_ord k; have hl := ltn_ord l.
  have -> : ((o <= o + k < o + j1) && (o + j1 <= o + j1 + l < o + (j1 + n2)))%N by lia.
  rewrite addnA sum_shift -sumrN; apply: eq_bigr => t _; have ht := ltn_ord t.
  rewrite mulNr; congr (- (_ * _)); last by rewrite mxE.
  rewrite mxE sum_shift; apply: eq_bigr => s _; have hs := ltn_ord s; rewrite mxE; congr (_ * _).
  rewrite -addnA WE; [|lia|lia|lia].
  by rewrite mxE; apply: eq_bigr => i _; rewrite !mxE.
Qed.

Lemma makeZ01P o A Z : (o + 2 <= M)%N -> zok M A (makeZ01 M o A Z) o 2.
Proof.
  move=> ho; set Z' := makeZ01 _ _ _ _.
  apply: (@zok_join _ M A Z' o 1 1); rewrite ?addn1; try exact: zok1.
  apply/matrixP => k l; rewrite !ord1 !mxE !big_ord1 !mxE !big_ord1 !mxE !addn0 /zelt !leqnn.
  have -> : Z' o o.+1 = - Z o o * Z o.+1 o.+1 * (\sum_(o + 2 <= i < M) (A i o)^* * A i o.+1 + (A o.+1 o)^*).
    by rewrite /Z' /makeZ01 /updm !eqxx.
  have -> : Z' o o = Z o o by rewrite /Z' /makeZ01 /updm eqxx (ltn_eqF (ltnSn o)).
  have -> : Z' o.+1 o.+1 = Z o.+1 o.+1 by rewrite /Z' /makeZ01 /updm (gtn_eqF (ltnSn o)).
  rewrite (eq_bigr (fun i : 'I_M => (yelt A i o)^* * yelt A i o.+1)); last first.
    by move=> i _; rewrite !mxE !addn0.
  rewrite -(@WE A o 1 1 o o.+1); [|lia|lia|lia].
  have e1 : (o + (1 + 1) = o.+2)%N by lia.
  rewrite e1 addn1 big_nat1 /yelt eqxx mulr1 ?addn2; mring.
Qed.
End Rec.

Section RecP.
Variable C : numClosedFieldType.
Variable M : nat.
Variable under : C -> bool.
Implicit Types (A Y Z m : fm C) (z : fv C).

(** What RecursiveQRDecompose on the columns [o,o+n) achieves. *)
Definition recpost (o n : nat) (mkZ : bool) A Z (d : C) (s : fm C * fm C * C) : Prop :=
  [/\ qinv M o n (o + n) A s.1.1 (fun k => s.1.2 k k) d s.2,
      mkZ -> zok M s.1.1 s.1.2 o n
    & forall k l, ~~ ((o <= k < o + n) && (o <= l < o + n))%N -> s.1.2 k l = Z k l].

Lemma blockdiv_trail o n e A0 A Z d0 d : (o + n <= e)%N -> (o + n <= M)%N ->
  qinv M o n (o + n) A0 A (fun k => Z k k) d0 d -> zok M A Z o n ->
  qinv M o n e A0 (blockmult true M o n (o + n) e A Z A) (fun k => Z k k) d0 d.
Proof.
  move=> he hn Q hz; apply: (qinv_trail he Q).
  - move=> c hc; rewrite blockmultE // -hz; congr (_ *m _).
    by rewrite ctrB ctr1 !ctrM ctrK mulmxA.
  - by move=> i c h; apply: blockmult_fr.
Qed.

Lemma RecQRP fuel o n mkZ A Z d : (n < fuel)%N -> (0 < n)%N -> (o + n <= M)%N ->
  exists s, RecQR under fuel M o n mkZ (A, Z, d) = Ok s /\ recpost o n mkZ A Z d s.
Proof.
  elim: fuel o n mkZ A Z d => // f IH o n mkZ A Z d hf hn hM /=.
  case: (eqVneq n 1%N) => [->|n1].
    case E : hreflect => [[A1 b] d1]; eexists; split; first by [].
    split=> /=.
    - by apply: (hreflectP _ E); [lia|rewrite /updm !eqxx].
    - by move=> _; apply: zok1.
    - by move=> k l h; rewrite /updm; case: ifP => // /andP [/eqP ek /eqP el]; exfalso; lia.
  case: (eqVneq n 2%N) => [e2|n2].
    case E : hreflectM => [[A1 b0] d1]; case E2 : hreflect => [[A2 b1] d2].
    set Z1 := updm (updm Z o o b0^*) o.+1 o.+1 b1^*.
    have zo : Z1 o o = b0^* by rewrite /Z1 /updm (ltn_eqF (ltnSn o)) !eqxx.
    have zo1 : Z1 o.+1 o.+1 = b1^* by rewrite /Z1 /updm !eqxx.
    have hzd k : (if mkZ then makeZ01 M o A2 Z1 else Z1) k k = Z1 k k.
      case: (mkZ) => //; rewrite /makeZ01 /updm; case: ifP => // /andP [/eqP ek /eqP el]; exfalso; lia.
    eexists; split; first by [].
    split=> /=.
    - have Q1 : qinv M o 1 (o + n) A A1 (fun k => Z1 k k) d d1.
        by rewrite e2; apply: (hreflectMP _ _ E) => //; lia.
      have Q2 : qinv M (o + 1) 1 (o + 1 + 1) A1 A2 (fun k => Z1 k k) d1 d2.
        by rewrite addn1; apply: (hreflectP _ E2) => //; lia.
      have en : (o + 1 + 1 = o + n)%N by lia.
      rewrite en in Q2; have Q := @qinv_join _ M o 1 1 (o + n) _ _ _ _ _ _ _ _ _ _ Q1 Q2.
      rewrite {1}e2; apply: (qinv_ext _ (Q _ _)) => //; last lia.
    - by move=> h; rewrite h e2; apply: makeZ01P; lia.
    - move=> k l h; case: ifP => _; rewrite /makeZ01 /Z1 /updm;
        repeat (case: ifP => [/andP [/eqP ek /eqP el]|_]; first by exfalso; lia); by [].
  set j1 := (n.+1 %/ 2)%N; have hj : (0 < j1 < n)%N by rewrite /j1; lia.
  have [[[A1 Z1] d1] [-> [Q1 zk1 f1]]] := IH o j1 true A Z d ltac:(lia) ltac:(lia) ltac:(lia).
  rewrite /= in Q1 zk1 f1 *; set A2 := blockmult _ _ _ _ _ _ _ _ _.
  have Q2 : qinv M o j1 (o + n) A A2 (fun k => Z1 k k) d d1.
    by apply: blockdiv_trail => //; [lia|lia|exact: zk1].
  have [[[A3 Z3] d3] [-> [Q3 zk3 f3]]] := IH (o + j1)%N (n - j1)%N mkZ A2 Z1 d1 ltac:(lia) ltac:(lia) ltac:(lia).
  rewrite /= in Q3 zk3 f3 *; eexists; split; first by [].
  have en : (o + j1 + (n - j1) = o + n)%N by lia.
  have en2 : (j1 + (n - j1) = n)%N by lia.
  have hzd k : (if mkZ then makeZ3 M o j1 n A3 Z3 else Z3) k k = Z3 k k.
    by case: (mkZ) => //; rewrite /makeZ3; case: ifP => // h; exfalso; lia.
  rewrite en in Q3 f3; split=> /=.
  - have := qinv_join _ _ Q2 Q3; rewrite en2 => Q; apply: (qinv_ext _ (Q _ _)) => //; first lia.
    by move=> k hk; rewrite f3 //; lia.
  - move=> h; rewrite h; have := @makeZ3P _ M o j1 (n - j1) A3 Z3; rewrite en2 => H; apply: H; [lia| |exact: zk3].
    apply: (zok_ext _ _ (zk1 isT)).
    + move=> i k hk hi; rewrite (qi_frame Q3); last lia.
      by rewrite /A2 blockmult_fr //; lia.
    + by move=> k l hk hl; rewrite f3 //; lia.
  - move=> k l h; have e3 : Z3 k l = Z k l by rewrite f3; [apply: f1|]; lia.
    by rewrite -e3; case: (mkZ) => //; rewrite /makeZ3; case: ifP => // h2; exfalso; lia.
Qed.

Arguments RecQR : simpl never.
Variable nb : nat.
Hypothesis nbP : (0 < nb)%N.

Lemma BlockQRP fuel N j1 A0 A (beta : fv C) Z d0 d : (N - j1 <= fuel)%N -> (j1 <= N)%N -> (N <= M)%N ->
  qinv M 0 j1 N A0 A (fun k => (beta k)^*) d0 d ->
  exists A' beta' d', BlockQR nb under fuel M N j1 (A, beta, d) Z = Ok (A', beta', d') /\
    qinv M 0 N N A0 A' (fun k => (beta' k)^*) d0 d' /\ (forall k, (N <= k)%N -> beta' k = beta k).
Proof using nbP.
  elim: fuel j1 A beta Z d => [|f IH] j1 A beta Z d hf hj hM Q /=.
    have -> : (j1 < N)%N = false by lia.
    have e : j1 = N by lia.
    by rewrite e in Q; exists A, beta, d.
  case: ltnP => h; last first.
    have e : j1 = N by lia.
    by rewrite e in Q; exists A, beta, d.
  set j2 := minn N (j1 + nb); have hj2 : (j1 < j2 <= N)%N by rewrite /j2; lia.
  have hp : (0 < j2 - j1)%N by lia.
  have hq : (j1 + (j2 - j1) <= M)%N by lia.
  have [[[A1 Z1] d1] [-> [Q1 zk1 f1]]] := RecQRP (j2 < N)%N A Z d (ltnSn (j2 - j1)) hp hq.
  rewrite /= in Q1 zk1 f1 *.
  set beta1 := (fun k : nat => if (j1 <= k < j2)%N then (Z1 k k)^* else beta k) : fv C.
  set A2 := if (j2 < N)%N then _ else _.
  have ej : (j1 + (j2 - j1) = j2)%N by lia.
  have Q2 : qinv M j1 (j2 - j1) N A A2 (fun k => Z1 k k) d d1.
    rewrite /A2; case: ltnP => h2.
      have := @blockdiv_trail j1 (j2 - j1) N A A1 Z1 d d1; rewrite ej => H; rewrite ej in Q1; apply: H => //; [lia|lia|exact: zk1].
    have e : j2 = N by lia.
    by rewrite ej in Q1; rewrite -e.
  have Q3 : qinv M j1 (j2 - j1) N A A2 (fun k => (beta1 k)^*) d d1.
    apply: (qinv_ext _ Q2) => k hk; rewrite /beta1 (_ : (j1 <= k < j2)%N = true) ?conjCK //; lia.
  have Q4 : qinv M 0 j2 N A0 A2 (fun k => (beta1 k)^*) d0 d1.
    rewrite -{1}ej; apply: (qinv_join _ _ Q Q3); first lia.
    by move=> k hk; rewrite /beta1 (_ : (j1 <= k < j2)%N = false) //; lia.
  have [A' [b' [d' [-> [Q' hb]]]]] := IH j2 A2 beta1 Z1 d1 ltac:(lia) ltac:(lia) hM Q4.
  exists A', b', d'; split=> //; split=> // k hk; rewrite hb // /beta1 (_ : (j1 <= k < j2)%N = false) //; lia.
Qed.

Lemma qinv0 e A z d : qinv M 0 0 e A A z d d.
Proof. by split=> //= [c hc|]; rewrite ?mul1mx ?det1 ?mulr1. Qed.

Lemma QR_DecomposeP N A beta d Z0 : (N <= M)%N ->
  exists A' beta' d', QR_Decompose nb under M N A beta d Z0 = Ok (A', beta', d') /\
    qinv M 0 N N A A' (fun k => (beta' k)^*) d d' /\ (forall k, (N <= k)%N -> beta' k = beta k).
Proof using nbP.
  move=> hM; rewrite /QR_Decompose; case: (posnP N) => [->|hN].
    by exists A, beta, d; split=> //; split=> //; apply: qinv0.
  case: ltnP => h.
    by apply: BlockQRP => //; [lia|exact: qinv0].
  have [[[A1 Z1] d1] [-> [Q1 zk1 f1]]] := RecQRP false A Z0 d (ltnSn N) hN (hM : (0 + N <= M)%N).
  rewrite /= in Q1 *; eexists _, _, _; split; first by [].
  split; last by move=> k hk; rewrite ltnNge hk.
  by apply: (qinv_ext _ Q1) => k; rewrite add0n /= => ->; rewrite conjCK.
Qed.
End RecP.
