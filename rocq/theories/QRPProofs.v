(** Proofs about QRP.v: the column-by-column version. *)
From Coq Require Import Ring Field.
From Verif Require Import Base FMat TriSolve RowPerm RingTac Cplx Chol QR QRProofs QRP.
From mathcomp Require Import all_ssreflect all_fingroup all_algebra zify.
Set Implicit Arguments. Unset Strict Implicit. Unset Printing Implicit Defensive.
Import GRing.Theory Num.Theory Order.Theory.
Local Open Scope ring_scope.

Section Basics.
Variable C : numClosedFieldType.
Implicit Types (A X : fm C) (z : fv C).

Lemma nsq_unitM n (U : 'M[C]_n) (x : 'cV[C]_n) : unit_mx U -> nsq (U *m x) = nsq x.
Proof.
  move=> h; have : ctr (U *m x) *m (U *m x) = ctr x *m x by rewrite ctrM mulmxA -(mulmxA (ctr x)) h mulmx1.
  by rewrite !nsqE => /matrixP /(_ 0 0); rewrite !mxE eqxx !mulr1n.
Qed.
Lemma tN0 (x : C) : 0 <= tNORM x.
Proof. by rewrite tNORM_norm exprn_ge0. Qed.
Lemma tN00 : tNORM (0 : C) = 0.
Proof. by rewrite tNORM_norm normr0 expr0n. Qed.
Lemma tN_eq0 (x : C) : (tNORM x == 0) = (x == 0).
Proof. by rewrite tNORM_norm sqrf_eq0 normr_eq0. Qed.

(** The squared norm of column k from row j on. *)
Definition cnq (M j : nat) A (k : nat) : C := \sum_(j <= i < M) tNORM (A i k).
Lemma cnq_ge0 M j A k : 0 <= cnq M j A k.
Proof. by apply: sumr_ge0 => i _; exact: tN0. Qed.
Lemma cnq_ext M j A A' k k' : (forall i, (j <= i < M)%N -> A i k = A' i k') -> cnq M j A k = cnq M j A' k'.
Proof. by move=> h; apply: eq_big_nat => i hi; rewrite h. Qed.
Lemma cnqS M j A k : (j < M)%N -> cnq M j A k = tNORM (A j k) + cnq M j.+1 A k.
Proof. by move=> h; rewrite /cnq big_ltn. Qed.
Lemma nsq_colv M A k : nsq (colv M A k) = cnq M 0 A k.
Proof. by rewrite /cnq big_mkord; apply: eq_bigr => i _; rewrite !mxE tNORM_conj. Qed.
Lemma cnq_cat M a j A k : (a <= j)%N -> (j <= M)%N -> cnq M a A k = cnq j a A k + cnq M j A k.
Proof. by move=> h1 h2; rewrite /cnq (big_cat_nat _ (n := j)). Qed.

Lemma nsq_rcol M A k : (k < M)%N -> nsq (rcol M A k) = cnq k.+1 0 A k.
Proof.
  move=> h; rewrite /cnq.
  have -> : nsq (rcol M A k) = \sum_(0 <= i < M) tNORM (if (i <= k)%N then A i k else 0).
    by rewrite big_mkord; apply: eq_bigr => i _; rewrite !mxE tNORM_conj.
  rewrite (big_cat_nat _ (n := k.+1)) //= [X in _ + X]big_nat [X in _ + X]big1 ?addr0.
    by apply: eq_big_nat => i hi; have -> : (i <= k)%N by lia.
  by move=> i hi; rewrite leqNgt (_ : (k < i)%N) ?tN00 //; lia.
Qed.

(** What one reflection does to the norms. *)
Lemma refl_norm M j e A A' z d d' : (j < M)%N -> (j < e)%N -> qinv M j 1 e A A' z d d' ->
  [/\ forall i c, (i < j)%N -> A' i c = A i c,
      cnq M j A j = tNORM (A' j j)
    & forall k, (j < k < e)%N -> cnq M j A k = tNORM (A' j k) + cnq M j.+1 A' k].
Proof.
  move=> hj he Q; have U := Pr_unit (qi_unit Q).
  have fr i c : (i < j)%N -> A' i c = A i c by move=> h; apply: (qi_frame Q); lia.
  have low k : cnq j 0 A' k = cnq j 0 A k by apply: cnq_ext => i hi; apply: fr; lia.
  split=> //.
    have := nsq_unitM (rcol M A' j) U; rewrite (qi_done Q) ?addn1 ?leqnn ?ltnSn // nsq_colv nsq_rcol //.
    rewrite (cnq_cat A j (leq0n j) (ltnW hj)) (cnq_cat A' j (leq0n j) (leqnSn j)) low => /addrI ->.
    by rewrite /cnq big_nat1.
  move=> k hk; have := nsq_unitM (colv M A' k) U; rewrite (qi_trail Q) ?addn1 //.
  rewrite !nsq_colv (cnq_cat A k (leq0n j) (ltnW hj)) (cnq_cat A' k (leq0n j) (ltnW hj)) low => /addrI ->.
  by rewrite cnqS.
Qed.

(** Exchanging two columns that both are, or both are not, carried along. *)
Lemma tsw_ltE a b c e : ((a < e) = (b < e))%N -> (tsw a b c < e)%N = (c < e)%N.
Proof. by rewrite /tsw => h; case: eqP => [->//|_]; case: eqP => [->//|]. Qed.
Lemma tsw_geE a b c e : (e <= a)%N -> (e <= b)%N -> (e <= tsw a b c)%N = (e <= c)%N.
Proof. by rewrite /tsw => h1 h2; case: eqP => [->|_]; [|case: eqP => [->|//]]; rewrite h1 h2. Qed.

Lemma qinv_swap M o n e X A z d0 d a b X' A' z' d0' d' s : (o + n <= a)%N -> (o + n <= b)%N -> ((a < e) = (b < e))%N ->
  (forall i c, X' i c = swapAc M a b X i c) -> (forall i c, A' i c = swapAc M a b A i c) ->
  (forall k, (o <= k < o + n)%N -> z k = z' k) -> d0' = s * d0 -> d' = s * d ->
  qinv M o n e X A z d0 d -> qinv M o n e X' A' z' d0' d'.
Proof.
  move=> ha hb hab eX eA ez -> -> /(qinv_ext ez) [u f t fr r z0 D].
  have lowA i c : (c < o + n)%N -> A' i c = A i c by move=> h; rewrite eA /swapAc tsw_out ?if_same //; lia.
  have lowX i c : (c < o + n)%N -> X' i c = X i c by move=> h; rewrite eX /swapAc tsw_out ?if_same //; lia.
  have pe : Pr M A' z' o n = Pr M A z' o n by apply: Pr_ext => // i k hk _; apply: lowA; lia.
  split.
  - by move=> k hk; rewrite (@yv_ext _ M A' A); [apply: u|move=> i _; apply: lowA; lia].
  - move=> c h; rewrite pe.
    have -> : rcol M A' c = rcol M A c by apply: (@rcol_fr _ _ _ _ c c.+1) => // i _; apply: lowA; lia.
    by rewrite f //; apply/matrixP => i j; rewrite !mxE lowX //; lia.
  - move=> c h; rewrite pe; have := t (tsw a b c); rewrite (tsw_geE _ ha hb) (tsw_ltE _ hab) => /(_ h) E.
    have -> : colv M A' c = colv M A (tsw a b c) by apply/matrixP => i j; rewrite !mxE eA /swapAc ltn_ord.
    by rewrite E; apply/matrixP => i j; rewrite !mxE eX /swapAc ltn_ord.
  - move=> i c h; rewrite eA eX /swapAc; case: (ltnP i M) => hi; last by apply: fr; lia.
    apply: fr; have h1 : (o <= tsw a b c)%N = (o <= c)%N by apply: tsw_geE; lia.
    by rewrite h1 (tsw_ltE _ hab).
  - by move=> c h; rewrite lowA; [apply: r|lia].
  - by move=> k i hk h1 h2; rewrite lowA; [apply: z0|lia].
  - by rewrite pe D mulrA.
Qed.
End Basics.

(** * Invariants *)
Section Inv.
Variable C : numClosedFieldType.
Variables (M N : nat) (A0 : fm C) (d0 : C).
Hypothesis NM : (N <= M)%N.
Implicit Types (A X : fm C) (z beta : fv C) (P : nat -> nat).

(** Columns of A0 after the exchanges k <-> P k, k < n, in this order. *)
Definition pcols P (n : nat) A : fm C := fun i c => if (i < M)%N then A i (psig P 0 n c) else A i c.
Definition sgn P (n : nat) : C := \prod_(0 <= k < n) (if P k == k then 1 else -1).

Lemma sgn_ext P P' n : (forall k, (k < n)%N -> P k = P' k) -> sgn P n = sgn P' n.
Proof using. clear NM; by move=> h; apply: eq_big_nat => k hk; rewrite h //; lia. Qed.
Lemma sgnS P n : sgn P n.+1 = sgn P n * (if P n == n then 1 else -1).
Proof using. by rewrite /sgn big_nat_recr. Qed.
Lemma pcols_ext P P' n X i c : (forall k, (k < n)%N -> P k = P' k) -> pcols P n X i c = pcols P' n X i c.
Proof using. clear NM; by move=> h; rewrite /pcols (@psig_ext P P') // => k hk; apply: h; lia. Qed.
Lemma pcolsS P n X i c : pcols P n.+1 X i c = swapAc M n (P n) (pcols P n X) i c.
Proof using. by rewrite /pcols /swapAc psigS add0n; case: ifP. Qed.

Record pinv (j : nat) A beta P (d : C) : Prop := PI {
  pi_q : qinv M 0 j N (pcols P j A0) A (fun k => (beta k)^*) (d0 * sgn P j) d;
  pi_P : forall k, (k < j)%N -> (k <= P k < N)%N }.

Lemma qinv_extA M' o n e X X' A z e0 d : (forall i c, X i c = X' i c) -> qinv M' o n e X A z e0 d -> qinv M' o n e X' A z e0 d.
Proof using.
  move=> h [u f t fr r z0 D]; split=> //.
  - by move=> c hc; rewrite f //; apply/matrixP => i k; rewrite !mxE.
  - by move=> c hc; rewrite t //; apply/matrixP => i k; rewrite !mxE.
  - by move=> i c hc; rewrite fr.
Qed.

Lemma pinv_step j p A A1 A' beta P d d1 bj d' : (j < N)%N -> (j <= p < N)%N -> pinv j A beta P d ->
  (forall i c, A1 i c = swapAc M j p A i c) -> d1 = (if p == j then d else - d) ->
  qinv M j 1 N A1 A' (fun k => (updv beta j bj k)^*) d1 d' ->
  pinv j.+1 A' (updv beta j bj) (updP P j p) d'.
Proof using NM.
  move=> hj hp [Q HP] eA ed Q1; split; last first.
    by move=> k hk; rewrite /updP; case: eqP => [->|hne]; [lia|apply: HP; lia].
  have eP k : (k < j)%N -> updP P j p k = P k by move=> h; rewrite /updP ltn_eqF.
  have ePj : updP P j p j = p by rewrite /updP eqxx.
  rewrite -addn1; apply: (@qinv_join _ M 0 j 1 N _ A1 A' (fun k => (updv beta j bj k)^*)) Q1 => //; first lia.
  apply: (@qinv_swap _ M 0 j N (pcols P j A0) A (fun k => (beta k)^*) (d0 * sgn P j) d j p _ _ _ _ _ (if p == j then 1 else -1)) => //.
  - lia.
  - by have -> : (j < N)%N = (p < N)%N by lia.
  - move=> i c; rewrite addn1 pcolsS ePj /swapAc.
    by case: ifP => // _; apply: pcols_ext.
  - by move=> k hk; rewrite /updv ltn_eqF.
  - by rewrite addn1 sgnS ePj (sgn_ext eP) mulrA mulrC.
  - by rewrite ed; case: ifP => _; rewrite ?mul1r ?mulN1r.
Qed.

(** Reduced columns have zeros below the diagonal. *)
Definition rr (j : nat) A : fm C := fun i k => if (k < j)%N && (k < i)%N then 0 else A i k.
(** The diagonal of R is in order. *)
Definition oinv (j : nat) A : Prop := forall a k, (a < j)%N -> (a <= k < N)%N -> cnq M a (rr j A) k <= tNORM (A a a).
Definition zinv (j : nat) A : Prop := forall a, (a < j)%N -> A a a != 0.

Lemma rr_low j A i k : (k < j)%N -> (k < i)%N -> rr j A i k = 0.
Proof using. by rewrite /rr => -> ->. Qed.
Lemma rr_up j A i k : ((j <= k) || (i <= k))%N -> rr j A i k = A i k.
Proof using. clear NM; by rewrite /rr; case: ifP => //; lia. Qed.

Lemma oinv_step j A A1 A' p z d1 d' : (j < N)%N -> (j <= p < N)%N -> (forall i c, A1 i c = swapAc M j p A i c) ->
  qinv M j 1 N A1 A' z d1 d' -> oinv j A ->
  (forall k, (j <= k < N)%N -> cnq M j A1 k <= cnq M j A1 j) -> oinv j.+1 A'.
Proof using NM.
  move=> hj hp eA Q O mx; have hjM : (j < M)%N by lia.
  have [fr nj nk] := refl_norm hjM hj Q.
  have A1E i c : (i < M)%N -> A1 i c = A i (tsw j p c) by move=> h; rewrite eA /swapAc h.
  have low i c : (c < j)%N -> A' i c = A1 i c by move=> h; apply: (qi_frame Q); lia.
  (* norms of a column of R from row a <= j on *)
  have nrm a k : (a <= j)%N -> (j <= k < N)%N -> cnq M a (rr j.+1 A') k = cnq M a A1 k.
    move=> ha hk; rewrite (cnq_cat (rr j.+1 A') k ha (ltnW hjM)) (cnq_cat A1 k ha (ltnW hjM)).
    congr (_ + _).
      by apply: cnq_ext => i hi; rewrite rr_up ?fr //; lia.
    case: (ltnP j k) => hjk.
      rewrite nk; last lia. rewrite (cnqS _ _ hjM) rr_up; last lia. congr (_ + _).
      by apply: cnq_ext => i hi; rewrite rr_up //; lia.
    have -> : k = j by lia.
    rewrite nj (cnqS _ _ hjM) rr_up; last lia.
    rewrite /cnq big_nat big1 ?addr0 // => i hi; rewrite rr_low ?tN00 //; lia.
  move=> a k ha hk; case: (ltnP a j) => haj.
    have e1 : A' a a = A a a by rewrite low // A1E ?tsw_out //; lia.
    rewrite e1; case: (ltnP k j) => hkj.
      rewrite (_ : cnq M a _ k = cnq M a (rr j A) k); first by apply: O => //; lia.
      apply: cnq_ext => i hi; rewrite /rr; have -> : (k < j.+1)%N by lia. rewrite hkj /=; case: ifP => // _.
      by rewrite low // A1E ?tsw_out //; lia.
    rewrite nrm; [|lia|lia].
    have ht : (a <= tsw j p k < N)%N.
      by rewrite tsw_geE; [rewrite (_ : (tsw j p k < N)%N = (k < N)%N); [lia|apply: tsw_ltE; lia]|lia|lia].
    have hj2 : (j <= tsw j p k)%N by rewrite tsw_geE //; lia.
    have := O a (tsw j p k) haj ht; congr (_ <= _); apply: cnq_ext => i hi; rewrite rr_up ?hj2 // A1E //; lia.
  have -> : a = j by lia.
  rewrite nrm; [|lia|lia].
  by rewrite -nj; apply: mx; lia.
Qed.

Lemma zinv_step j A A1 A' p z d1 d' : (j < N)%N -> (j <= p < N)%N -> (forall i c, A1 i c = swapAc M j p A i c) ->
  qinv M j 1 N A1 A' z d1 d' -> zinv j A -> 0 < cnq M j A1 j -> zinv j.+1 A'.
Proof using NM.
  move=> hj hp eA Q O hpos a ha; have hjM : (j < M)%N by lia.
  have [fr nj _] := refl_norm hjM hj Q; case: (ltnP a j) => haj.
    rewrite fr // eA /swapAc; have -> : (a < M)%N by lia.
    by rewrite tsw_out ?O //; lia.
  have -> : a = j by lia.
  by rewrite -tN_eq0 -nj gt_eqF.
Qed.
End Inv.

(** * The largest norm *)
Section Max.
Variable C : numClosedFieldType.
Definition isreal (x : option C) : Prop := exists2 y, x = Some y & y \is Num.real.
Lemma nlt_irr (x : option C) : nlt x x = false.
Proof. by case: x => //= x; rewrite ltxx. Qed.
Lemma maxelP (cn : nat -> option C) j N : (j < N)%N -> let: (mx, jp) := maxel cn j N in
  [/\ (jp < N - j)%N, mx = cn (j + jp)%N &
      (forall k, (j <= k < N)%N -> isreal (cn k)) -> forall k, (j <= k < N)%N -> ~~ nlt mx (cn k)].
Proof.
  move=> hj; rewrite /maxel; set F := (fun _ _ => _).
  have H n : (n <= (N - j).-1)%N -> let m := foldl F (cn j, 0%N) (iota 1 n) in
    [/\ (m.2 < n.+1)%N, m.1 = cn (j + m.2)%N &
        (forall k, (j <= k < N)%N -> isreal (cn k)) -> forall k, (j <= k < j + n.+1)%N -> ~~ nlt m.1 (cn k)].
    elim: n => [|n IH] hn.
      split=> //=; first by rewrite addn0.
      by move=> hr k hk; rewrite (_ : k = j) ?nlt_irr //; lia.
    have [i1 i2 i3] := IH (ltnW hn).
    have -> : iota 1 n.+1 = iota 1 n ++ [:: n.+1] by have := iotaD 1 n 1; rewrite addn1 add1n.
    rewrite foldl_cat /=.
    set m := foldl F _ _ in i1 i2 i3 *; have -> : F m n.+1 = if nlt m.1 (cn (j + n.+1)%N) then (cn (j + n.+1)%N, n.+1) else m by [].
    case: ifP => hlt /=; split=> //; try lia.
      move=> hr k hk.
      have [y e hy] : isreal (cn (j + n.+1)%N) by apply: hr; lia.
      case: (ltnP k (j + n.+1)%N) => hk2; last by rewrite (_ : k = (j + n.+1)%N) ?nlt_irr //; lia.
      have hk3 := i3 hr k ltac:(lia); have [x ex hx] : isreal (cn k) by apply: hr; lia.
      have [w ew hw] : isreal (cn (j + m.2)%N) by apply: hr; lia.
      move: hlt hk3; rewrite i2 ew e ex /= => hlt; rewrite -real_leNgt // -real_leNgt // => hle.
      exact: le_trans hle (ltW hlt).
    move=> hr k hk; case: (ltnP k (j + n.+1)%N) => hk2; first by apply: i3 => //; lia.
    by rewrite (_ : k = (j + n.+1)%N) ?hlt //; lia.
  have := H (N - j).-1 (leqnn _); case: foldl => mx jp /= [h1 h2 h3]; split=> //; first lia.
  by move=> hr k hk; apply: h3 => //; lia.
Qed.
End Max.

(** * The end: a small remainder is replaced by zero *)
Section Fin.
Variable C : numClosedFieldType.
Variables (M N : nat) (A0 : fm C) (b0 : fv C) (P0 : nat -> nat) (d0 tol : C) (strict rk : bool).
Hypothesis NM : (N <= M)%N.
Implicit Types (A X : fm C) (beta : fv C) (P : nat -> nat).

(** R below [r] is zero, Q R is X, and X differs little from A0 with its columns permuted. *)
Record qrpres (r : nat) X A beta P (d : C) : Prop := QPR {
  qp_r : (r <= N)%N;
  qp_q : qinv M 0 N N X A (fun k => (beta k)^*) (d0 * sgn C P N) d;
  qp_P : forall k, (k < N)%N -> (k <= P k < N)%N;
  qp_diag : rk -> forall a, (a < r)%N -> A a a != 0;
  qp_zero : forall i c, (r <= i)%N -> (i <= c < N)%N -> A i c = 0;
  qp_exact : forall i c, (c < r)%N -> X i c = pcols M P N A0 i c;
  qp_close : forall c, (r <= c < N)%N -> \sum_(i < M) `|pcols M P N A0 i c - X i c| ^+ 2 <= tol;
  qp_ord : strict -> oinv M N N A;
  qp_frA : forall i c, ~~ ((i < M) && (c < N))%N -> A i c = A0 i c;
  qp_frb : forall k, (N <= k)%N -> beta k = b0 k;
  qp_frP : forall k, (N <= k)%N -> P k = P0 k }.

Definition finA (r : nat) A : fm C := fun i c => if (r <= i < M)%N && (r <= c < N)%N then 0 else A i c.
Definition finb (r : nat) beta : fv C := fun k => if (r <= k < N)%N then 0 else beta k.
Definition finP (r : nat) P : nat -> nat := fun k => if (r <= k < N)%N then k else P k.

Lemma Pr_id A z o n : (forall k, (o <= k < o + n)%N -> z k = 0) -> Pr M A z o n = 1%:M.
Proof using. clear NM.
  elim: n o => //= n IH o h; rewrite h; last lia.
  by rewrite Hm0 mul1mx IH // => k hk; apply: h; lia.
Qed.
Lemma psig_id P lo n i : (forall k, (lo <= k < lo + n)%N -> P k = k) -> psig P lo n i = i.
Proof using. clear NM.
  elim: n => // n IH h; rewrite psigS h; last lia.
  by rewrite tsw_same IH // => k hk; apply: h; lia.
Qed.
Lemma finP_lt r P k : (k < r)%N -> finP r P k = P k.
Proof using. clear NM; by move=> h; rewrite /finP ifF //; lia. Qed.
Lemma finP_ge r P k : (r <= k < N)%N -> finP r P k = k.
Proof using. clear NM; by move=> h; rewrite /finP h. Qed.
Lemma psig_finP r P c : (r <= N)%N -> psig (finP r P) 0 N c = psig P 0 r c.
Proof using. clear NM.
  move=> h; have := psig_cat (finP r P) 0 r (N - r) c; rewrite subnKC // => ->.
  rewrite (psig_id (n := (N - r)%N)) => [|k hk]; last by rewrite /finP ifT //; lia.
  by apply: psig_ext => k hk; rewrite /finP ifF //; lia.
Qed.
Lemma sgn_finP r P : (r <= N)%N -> sgn C (finP r P) N = sgn C P r.
Proof using. clear NM.
  move=> h; rewrite /sgn (big_cat_nat _ (n := r)) //= [X in _ * X]big_nat [X in _ * X]big1 ?mulr1.
    by apply: eq_big_nat => k hk; rewrite finP_lt //; lia.
  by move=> k hk; rewrite finP_ge ?eqxx //; lia.
Qed.

Lemma finishP r A beta P d A' beta' P' : (r <= N)%N -> pinv M N A0 d0 r A beta P d ->
  (rk -> zinv r A) -> (strict -> oinv M N r A) -> (forall k, (r <= k < N)%N -> cnq M r A k <= tol) ->
  (forall k, (N <= k)%N -> beta k = b0 k) -> (forall k, (N <= k)%N -> P k = P0 k) ->
  (forall i c, A' i c = finA r A i c) -> (forall k, beta' k = finb r beta k) -> (forall k, P' k = finP r P k) ->
  exists X, qrpres r X A' beta' P' d.
Proof using NM.
  move=> hr [Q HP] Z O T fb fP eA eb eP.
  have U := Pr_unit (qi_unit Q); set PA := Pr M A _ 0 r in U.
  have colA i c : (c < r)%N -> A' i c = A i c by move=> h; rewrite eA /finA ifF //; lia.
  have rowA i c : (i < r)%N -> A' i c = A i c by move=> h; rewrite eA /finA ifF //; lia.
  have zA i c : (r <= i < M)%N -> (r <= c < N)%N -> A' i c = 0 by move=> h1 h2; rewrite eA /finA h1 h2.
  have bz k : (r <= k < N)%N -> (beta' k)^* = 0 by move=> h; rewrite eb /finb h conjC0.
  have pe1 : Pr M A' (fun k => (beta' k)^*) 0 r = PA.
    by apply: Pr_ext => [i k hk hi|k hk]; [apply: colA; lia|rewrite eb /finb ifF //; lia].
  have pe : Pr M A' (fun k => (beta' k)^*) 0 N = PA.
    have := Pr_cat M A' (fun k => (beta' k)^*) 0 r (N - r); rewrite subnKC // => ->.
    by rewrite pe1 (@Pr_id A' _ (0 + r)%N (N - r)%N) ?mulmx1 // => k hk; apply: bz; lia.
  have pc i c : pcols M P' N A0 i c = pcols M P r A0 i c.
    rewrite /pcols -(psig_finP P c hr); congr (if _ then A0 i _ else _).
    by apply: psig_ext => k _.
  have frQ i c : ~~ ((i < M) && (c < N))%N -> A' i c = pcols M P' N A0 i c.
    by move=> h; rewrite pc -(qi_frame Q) //; rewrite eA /finA ifF //; lia.
  pose X : fm C := fun i c => if insub i is Some i' then
    (if (c < N)%N then (PA *m rcol M A' c) i' 0 else pcols M P' N A0 i c) else pcols M P' N A0 i c.
  have Xc c : (c < N)%N -> colv M X c = PA *m rcol M A' c.
    by move=> h; apply/matrixP => i k; rewrite [LHS]mxE /X valK h ord1.
  have Xf i c : ~~ ((i < M) && (c < N))%N -> X i c = pcols M P' N A0 i c.
    by move=> h; rewrite /X; case: insubP => // i' hi' _; rewrite ifF //; lia.
  have ex c : (c < r)%N -> PA *m rcol M A' c = colv M (pcols M P' N A0) c.
    move=> h; rewrite -(_ : colv M (pcols M P r A0) c = colv M (pcols M P' N A0) c); last by apply/matrixP => i k; rewrite !mxE pc.
    rewrite -(qi_done Q) //; congr (_ *m _).
    by apply: (@rcol_fr _ _ _ _ c c.+1) => // i _; apply: colA.
  have err c : (r <= c < N)%N -> colv M (pcols M P' N A0) c - PA *m rcol M A' c = PA *m colv M (fun i k => if (i < r)%N then 0 else A i k) c.
    move=> h; have -> : colv M (pcols M P' N A0) c = colv M (pcols M P r A0) c by apply/matrixP => i k; rewrite !mxE pc.
    rewrite -(qi_trail Q) // -mulmxBr; congr (_ *m _); apply/matrixP => i k; rewrite !mxE.
    have hi := ltn_ord i; case: (ltnP i r) => hir.
      have -> : (i <= c)%N by lia.
      by rewrite rowA // subrr.
    case: ifP => hic; last by rewrite subr0.
    by rewrite zA ?subr0 //; lia.
  exists X; split=> //.
  - split.
    + move=> k hk; case: (ltnP k r) => hkr; last by rewrite bz ?Hm0; [exact: unit_mx1|lia].
      have -> : (beta' k)^* = (beta k)^* by rewrite eb /finb ifF //; lia.
      rewrite (@yv_ext _ M A' A); first by apply: (qi_unit Q); lia.
      by move=> i _; apply: colA.
    + by move=> c hc; rewrite pe Xc.
    + by move=> c hc; lia.
    + by move=> i c h; rewrite Xf ?frQ //; lia.
    + move=> c hc; case: (ltnP c r) => h; first by rewrite colA //; apply: (qi_real Q); lia.
      by rewrite zA ?real0 //; lia.
    + move=> k i hk; case: (ltnP k r) => h hz hi.
        rewrite colA //; apply: (qi_zero Q) hi; first lia.
        by rewrite -hz eb /finb ifF //; lia.
      by rewrite zA //; lia.
    + rewrite pe (qi_det Q) -/PA; congr (_ * _ * _); rewrite -(sgn_finP P hr).
      by apply: sgn_ext => k _; rewrite eP.
  - move=> k hk; rewrite eP /finP; case: ifP => h; first lia.
    by apply: HP; lia.
  - by move=> hk a ha; rewrite rowA // Z.
  - by move=> i c h1 h2; rewrite zA //; lia.
  - move=> i c hc; case: (ltnP i M) => hi; last by rewrite Xf //; lia.
    by have /matrixP/(_ (Ordinal hi) 0) := ex c hc; rewrite -Xc ?mxE //; lia.
  - move=> c hc; have -> : \sum_(i < M) `|pcols M P' N A0 i c - X i c| ^+ 2 = nsq (colv M (pcols M P' N A0) c - colv M X c).
      by apply: eq_bigr => i _; rewrite !mxE normCK.
    rewrite Xc; last lia. rewrite err // nsq_unitM // nsq_colv.
    rewrite (cnq_cat _ _ (leq0n r) (leq_trans hr NM)) {1}/cnq big_nat big1 ?add0r => [|i hi]; last first.
      by rewrite ifT ?tN00 //; lia.
    apply: le_trans (T c hc); rewrite (@cnq_ext _ M r _ A c c) // => i hi.
    by rewrite ifF //; lia.
  - move=> hs a k ha hk; case: (ltnP a r) => har.
      rewrite rowA //; apply: le_trans (O hs a k har hk).
      rewrite /cnq big_nat [X in _ <= X]big_nat; apply: ler_sum => i hi.
      case: (ltnP k r) => hkr.
        by rewrite /rr hkr (_ : (k < N)%N); [case: ifP => // _; rewrite colA|lia].
      rewrite [rr r A i k]rr_up ?hkr // /rr; have -> : (k < N)%N by lia.
      case: (ltnP k i) => hki /=; first by rewrite tN00 tN0.
      case: (ltnP i r) => hir; first by rewrite rowA.
      by rewrite zA ?tN00 ?tN0 //; lia.
    rewrite zA ?tN00; [|lia|lia].
    rewrite /cnq big_nat big1 // => i hi; rewrite /rr; case: ifP => _; rewrite ?tN00 // zA ?tN00 //; lia.
  - by move=> i c h; rewrite frQ // /pcols; case: ifP => // hi; rewrite (@psig_out N) //;
      [move=> k hk; rewrite eP /finP; case: ifP => hh; [lia|have := HP k; lia]|lia].
  - by move=> k hk; rewrite eb /finb ifF ?fb //; lia.
  - by move=> k hk; rewrite eP /finP ifF ?fP //; lia.
Qed.
(** The zero matrix: nothing is cut off, and R is zero. *)
Lemma finish0 A beta P d : pinv M N A0 d0 N A beta P d -> 0 <= tol ->
  (forall i c, (i < M)%N -> (c < N)%N -> A0 i c = 0) ->
  (forall k, (N <= k)%N -> beta k = b0 k) -> (forall k, (N <= k)%N -> P k = P0 k) ->
  qrpres 0 (pcols M P N A0) A beta P d.
Proof using NM.
  move=> [Q HP] tol0 z0 fb fP.
  have U := Pr_unit (qi_unit Q).
  have pz i c : (i < M)%N -> (c < N)%N -> pcols M P N A0 i c = 0.
    move=> hi hc; rewrite /pcols hi z0 //; apply: psig_lt => // k hk; have := HP k; lia.
  have Rz i c : (i <= c < N)%N -> A i c = 0.
    move=> h; have := nsq_unitM (rcol M A c) U; rewrite (qi_done Q) ?nsq_colv ?nsq_rcol; [|lia|lia].
    rewrite {1}/cnq big_nat big1 => [|k hk]; last by rewrite pz ?tN00 //; lia.
    move=> /esym; rewrite (cnq_cat A c (leq0n i)); last lia.
    rewrite (@cnqS _ c.+1 i); last lia. move/eqP; rewrite paddr_eq0; [|exact: cnq_ge0|by rewrite addr_ge0 ?tN0 ?cnq_ge0].
    by rewrite paddr_eq0 ?tN0 ?cnq_ge0 // tN_eq0 => /and3P [_ /eqP ->].
  split=> //.
  - by move=> i c _; apply: Rz.
  - by move=> c hc; rewrite big1 // => i _; rewrite subrr normr0 expr0n.
  - move=> _ a k ha hk; rewrite /cnq big_nat big1 ?tN0 // => i hi.
    have hkN : (k < N)%N by lia. rewrite /rr hkN /=; case: ifP => h; rewrite ?tN00 // Rz ?tN00 //; lia.
  - move=> i c h; rewrite (qi_frame Q) // /pcols; case: ifP => // hi; rewrite (@psig_out N) //;
      [move=> k hk; have := HP k; lia|lia].
Qed.
End Fin.
