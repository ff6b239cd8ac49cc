(** C51: division with the singular value decomposition. *)
From Coq Require Import Ring Field.
From Verif Require Import Base FMat TriSolve TriInv RowPerm Claims_Tri LUDiv RingTac Cplx Chol QR QRProofs QRDiv QRDivProofs Claims_QR SVDiv SVDivProofs.
From mathcomp Require Import all_ssreflect all_fingroup all_algebra all_field zify.
Set Implicit Arguments. Unset Strict Implicit. Unset Printing Implicit Defensive.
Import GRing.Theory Num.Theory Order.Theory.
Local Open Scope ring_scope.

(** Specification. *)
Section Spec.
Variable C : numClosedFieldType.
Implicit Types (A X U Vt : fm C) (x b S : fv C).
(** A = U S Vt, for an Mr x Nr matrix, n = min(Mr,Nr): U has n orthonormal columns, Vt n
    orthonormal rows, and S is real, not negative and in descending order. *)
Definition rows_orthonormal (n N : nat) Vt : Prop :=
  forall k k', (k < n)%N -> (k' < n)%N -> \sum_(j < N) Vt k j * (Vt k' j)^* = (k == k')%:R.
Definition usv (k : nat) U S Vt : fm C := fun i j => \sum_(l < k) U i l * S l * Vt l j.
Definition is_svd (Mr Nr : nat) A U S Vt : Prop :=
  let n := minn Mr Nr in
  [/\ orthonormal Mr n U, rows_orthonormal n Nr Vt,
      (forall k, (k < n)%N -> 0 <= S k), (forall k, (k.+1 < n)%N -> S k.+1 <= S k) &
      forall i j, (i < Mr)%N -> (j < Nr)%N -> A i j = usv n U S Vt i j].
(** x is the minimum norm least squares solution of A x = b. *)
Definition mnls (M N : nat) A x b : Prop :=
  (forall y, resid2 M N A x b <= resid2 M N A y b) /\
  (forall y, resid2 M N A y b = resid2 M N A x b -> norm2 N x <= norm2 N y).
(** A x; the largest and the smallest factor by which A stretches a vector. *)
Definition appl (N : nat) A x : fv C := fun i => \sum_(k < N) A i k * x k.
Definition max_stretch (M N : nat) A (s : C) : Prop :=
  [/\ 0 <= s, forall x, norm2 M (appl N A x) <= s ^+ 2 * norm2 N x &
      exists x, norm2 N x = 1 /\ norm2 M (appl N A x) = s ^+ 2].
Definition min_stretch (M N : nat) A (s : C) : Prop :=
  [/\ 0 <= s, forall x, s ^+ 2 * norm2 N x <= norm2 M (appl N A x) &
      exists x, norm2 N x = 1 /\ norm2 M (appl N A x) = s ^+ 2].
(** X (N x M) is the Moore-Penrose inverse of A (M x N). *)
Definition mpinv (M N : nat) A X : Prop :=
  [/\ forall i j, (i < M)%N -> (j < N)%N -> prodm M (prodm N A X) A i j = A i j,
      forall i j, (i < N)%N -> (j < M)%N -> prodm N (prodm M X A) X i j = X i j,
      hermitian M (prodm N A X) & hermitian N (prodm M X A)].
End Spec.

Section Bridge.
Variable C : numClosedFieldType.
Implicit Types (A X U Vt : fm C) (x b S : fv C).
Lemma mx_prodm M N K A X : mx M K (prodm N A X) = mx M N A *m mx N K X.
Proof. by apply/matrixP => i j; rewrite !mxE; apply: eq_bigr => k _; rewrite !mxE. Qed.
Lemma hermitianP n A : hermitian n A <-> ctr (mx n n A) = mx n n A.
Proof.
  split=> [h|h i j hi hj]; first by apply/matrixP => i j; rewrite !mxE -h.
  by move/matrixP/(_ (Ordinal hj) (Ordinal hi)): h; rewrite !mxE => <-.
Qed.
Lemma mx_eqP M N A B : (forall i j, (i < M)%N -> (j < N)%N -> A i j = B i j) <-> mx M N A = mx M N B.
Proof.
  split=> [h|h i j hi hj]; first by apply/matrixP => i j; rewrite !mxE h.
  by move/matrixP/(_ (Ordinal hi) (Ordinal hj)): h; rewrite !mxE.
Qed.
Lemma mpinvP M N A X : penrose (mx M N A) (mx N M X) -> mpinv M N A X.
Proof.
  case=> e1 e2 e3 e4; split; try (apply/mx_eqP; by rewrite !mx_prodm);
    by apply/hermitianP; rewrite mx_prodm.
Qed.
Lemma mnlsP M N A P x b : penrose (mx M N A) P -> vec N x = P *m vec M b -> mnls M N A x b.
Proof.
  move=> H e; have [h1 h2] := penrose_lsq (vec M b) H; rewrite -e in h1 h2.
  by split=> y; rewrite !resid2E; [apply: h1 | move/h2; rewrite !norm2E].
Qed.
Lemma mx_usv M N k U S Vt : mx M N (usv k U S Vt) = Ak M N U S Vt k.
Proof.
  apply/matrixP => i j; rewrite /Ak -mulmxA dgM !mxE; apply: eq_bigr => l _.
  by rewrite !mxE mulrA.
Qed.
Lemma mx_trm M N A : mx M N (trm A) = (mx N M A)^T.
Proof. by apply/matrixP => i j; rewrite !mxE. Qed.

(** The factors the object holds are those of the taller of A and its transpose. *)
Definition held (Mr Nr : nat) A U S Vt : Prop := is_svd (maxn Mr Nr) (minn Mr Nr) (QRDiv_QRx Mr Nr A) U S Vt.

Section Held.
Variables (Mr Nr : nat) (A U : fm C) (S : fv C) (Vt : fm C).
Hypothesis H : held Mr Nr A U S Vt.
Let n := minn Mr Nr.
Let gU := SVDiv_getU Mr Nr U Vt.
Let gV := SVDiv_getVt Mr Nr U Vt.
Lemma held_o : orthonormal (maxn Mr Nr) n U /\ orthonormal n n (fun j k => (Vt k j)^*).
Proof using H.
  case: H => h1 h2 h3 h4 h5; have e : minn (maxn Mr Nr) (minn Mr Nr) = n by rewrite /n; lia.
  rewrite e in h1 h2; split=> // c c' hc hc'; rewrite -(h2 c c') //; apply: eq_bigr => i _; by rewrite conjCK.
Qed.
Lemma genP k : (k <= n)%N -> exists P : 'M[C]_(Nr, Mr),
  [/\ (forall i, (i < k)%N -> S i != 0) -> penrose (mx Mr Nr (usv k gU S gV)) P,
      forall K m (x0 : fm C), post (fun X => ((0 < K)%N -> forall i, (i < k)%N -> S i != 0) /\ mx Nr K X = P *m mx Mr K m)
        (dpost S k K) (SVDiv_LDiv Mr Nr K U S Vt k m x0),
      forall x0 : fm C, post (fun X => ((0 < Mr)%N -> forall i, (i < k)%N -> S i != 0) /\ mx Nr Mr X = P)
        (dpost S k Mr) (SVDiv_Inverse Mr Nr U S Vt k x0) &
      forall K m (x0 : fm C), post (fun X => ((0 < K)%N -> forall i, (i < k)%N -> S i != 0) /\ mx K Mr X = mx K Nr m *m P)
        (dpost S k K) (SVDiv_RDiv Mr Nr K U S Vt k m x0)].
Proof using H.
  move=> hk; have [o1 o2] := held_o.
  rewrite /SVDiv_LDiv /SVDiv_RDiv /SVDiv_Inverse /gU /gV /SVDiv_getU /SVDiv_getVt /istrans; case: (ltnP Mr Nr) => h.
    have e1 : maxn Mr Nr = Nr by lia.
    have e2 : n = Mr by rewrite /n; lia.
    rewrite e1 e2 in o1 o2; rewrite e2 in hk.
    have tr i j : usv k (trm Vt) S (trm U) i j = trm (usv k U S Vt) i j.
      by rewrite /usv /trm; apply: eq_bigr => l _; rewrite -mulrA mulrC [S l * _]mulrC.
    exists (Pk Nr Mr U S Vt k)^T; split=> [nz|K m x0|x0|K m x0].
    - have -> : mx Mr Nr (usv k (trm Vt) S (trm U)) = (Ak Nr Mr U S Vt k)^T.
        by rewrite -mx_usv -(mx_trm _ _ (usv k U S Vt)); apply/matrixP => i j; rewrite !mxE tr.
      by apply: penroseT; apply: PkP.
    - apply: post_bind; apply: post_imp (SV_RDivP Nr Mr U S Vt k K (trm m) (trm x0)) => // X [h1 h2] /=.
      by split=> //; rewrite (mx_trm _ _ X) h2 (mx_trm _ _ m) trmx_mul trmxK.
    - apply: post_bind; apply: post_imp (DiagLDivEqP k Mr S _) => // X [h1 hX] /=; split=> //.
      have e : mx k Mr X = dg k (sinv S) *m mx k Mr (fun i j => (Vt i j)^*).
        by rewrite dgM; apply/matrixP => i j; rewrite !mxE hX !ltn_ord /= mulrC.
      have -> : (Pk Nr Mr U S Vt k)^T = mx Nr k (fun i l => (U i l)^*) *m mx k Mr X.
        rewrite e /Pk !trmx_mul; congr (_ *m _); first by apply/matrixP => i j; rewrite !mxE.
        by congr (_ *m _); apply/matrixP => i j; rewrite !mxE // eq_sym; case: eqP => [->|].
      apply/matrixP => i j; rewrite !mxE !ltn_ord /= big_mkord; apply: eq_bigr => l _; by rewrite !mxE.
    - apply: post_bind; apply: post_imp (SV_LDivP Nr Mr U S Vt k K (trm m) (trm x0)) => // X [h1 h2] /=.
      by split=> //; rewrite (mx_trm _ _ X) h2 (mx_trm _ _ m) trmx_mul trmxK.
  have e1 : maxn Mr Nr = Mr by lia.
  have e2 : n = Nr by rewrite /n; lia.
  rewrite e1 e2 in o1 o2; rewrite e2 in hk.
  exists (Pk Mr Nr U S Vt k); split=> [nz|K m x0|x0|K m x0].
  - by rewrite mx_usv; apply: PkP.
  - exact: SV_LDivP.
  - apply: post_bind; apply: post_imp (DiagLDivEqP k Mr S _) => // X [h1 hX] /=; split=> //.
    have e : mx k Mr X = dg k (sinv S) *m ctr (mx Mr k U).
      have -> : ctr (mx Mr k U) = mx k Mr (fun i j => (U j i)^*) by apply/matrixP => i j; rewrite !mxE.
      by rewrite dgM; apply/matrixP => i j; rewrite !mxE hX !ltn_ord /= mulrC.
    rewrite /Pk -mulmxA -e; apply/matrixP => i j; rewrite !mxE !ltn_ord /= big_mkord.
    by apply: eq_bigr => l _; rewrite !mxE.
  - exact: SV_RDivP.
Qed.
Lemma thr_le t k : (thr S t k <= k)%N.
Proof. by elim: k => [|k IH] //=; case: ifP => // _; apply: leq_trans IH _. Qed.
Lemma S_mono i j : (i <= j)%N -> (j < n)%N -> S j <= S i.
Proof using H.
  case: H => _ _ _ h4 _; have e : minn (maxn Mr Nr) (minn Mr Nr) = n by rewrite /n; lia.
  rewrite e in h4; elim: j => [|j IH] hij hj; first by rewrite (_ : i = 0%N) //; lia.
  move: hij; rewrite leq_eqVlt ltnS => /orP [/eqP ->|hij] //.
  by apply: le_trans (h4 j hj) _; apply: IH => //; lia.
Qed.
Lemma S_ge0 i : (i < n)%N -> 0 <= S i.
Proof using H. by case: H => _ _ h3 _ _ hi; apply: h3; rewrite /n in hi; lia. Qed.
Lemma thr_above t k : (k <= n)%N -> t \is Num.real -> forall i, (i < thr S t k)%N -> t < S i.
Proof using H.
  move=> hk ht; elim: k hk => [|k IH] hk i //=; case: ifP => h hi; first by apply: IH => //; lia.
  have hk' : t < S k by rewrite real_ltNge ?h // ger0_real // S_ge0.
  by apply: lt_le_trans hk' (S_mono _ _); lia.
Qed.
Lemma thr_below t k : (k <= n)%N -> forall i, (thr S t k <= i < k)%N -> S i <= t.
Proof using H.
  elim: k => [|k IH] hk i /=; first by lia.
  case: ifP => h hi; last by lia.
  case: (ltnP i k) => hik; last by rewrite (_ : i = k) //; lia.
  by apply: IH; lia.
Qed.
End Held.
(** Norms. *)
Lemma nsq_iso M N (Q : 'M[C]_(M, N)) (u : 'cV[C]_N) : ctr Q *m Q = 1%:M -> nsq (Q *m u) = nsq u.
Proof.
  move=> h; have : ctr (Q *m u) *m (Q *m u) = ctr u *m u by rewrite ctrM mulmxA -(mulmxA (ctr u)) h mulmx1.
  by rewrite !nsqE => /matrixP/(_ 0 0); rewrite !mxE eqxx !mulr1n.
Qed.
Lemma bessel M N (V : 'M[C]_(M, N)) (u : 'cV[C]_N) : V *m ctr V = 1%:M -> nsq (V *m u) <= nsq u.
Proof.
  move=> h; have e : u = ctr V *m (V *m u) + (u - ctr V *m (V *m u)) by rewrite addrC subrK.
  rewrite [in X in _ <= X]e pyth; last by rewrite ctrM ctrK mulmxBr -!mulmxA (mulmxA V (ctr V)) h mul1mx subrr.
  rewrite (nsq_iso (V *m u)) ?ctrK // ler_addl; exact: nsq_ge0.
Qed.
Lemma dg_vec k S (u : 'cV[C]_k) i : (dg k S *m u) i 0 = S i * u i 0.
Proof. by rewrite mxE (bigD1 i) //= mxE eqxx big1 ?addr0 // => l /negbTE hl; rewrite mxE eq_sym hl mul0r. Qed.
Lemma nsq_dg k S t (u : 'cV[C]_k) : (forall i, (i < k)%N -> 0 <= S i <= t) -> nsq (dg k S *m u) <= t ^+ 2 * nsq u.
Proof.
  move=> h; rewrite /nsq mulr_sumr; apply: ler_sum => i _; rewrite -!normCK dg_vec.
  have /andP [h1 h2] := h i (ltn_ord i).
  rewrite normrM exprMn ger0_norm // ler_wpmul2r ?exprn_ge0 //.
  by rewrite ler_expn2r // nnegrE //; apply: le_trans h1 h2.
Qed.
Lemma nsq_dg_low k S t (u : 'cV[C]_k) : 0 <= t -> (forall i, (i < k)%N -> t <= S i) -> t ^+ 2 * nsq u <= nsq (dg k S *m u).
Proof.
  move=> ht h; rewrite /nsq mulr_sumr; apply: ler_sum => i _; rewrite -!normCK dg_vec.
  have h1 := h i (ltn_ord i); have h2 := le_trans ht h1.
  rewrite normrM exprMn ger0_norm // ler_wpmul2r ?exprn_ge0 //.
  by rewrite ler_expn2r // nnegrE.
Qed.
Lemma vec_appl M N A x : vec M (appl N A x) = mx M N A *m vec N x.
Proof. by apply/matrixP => i j; rewrite !mxE; apply: eq_bigr => k _; rewrite !mxE. Qed.

Section Svd2.
Variables (M N : nat) (U Vt : fm C).
Variable n : nat.
Hypothesis Uo : orthonormal M n U.
Hypothesis Vo : rows_orthonormal n N Vt.
Lemma Uiso : ctr (mx M n U) *m mx M n U = 1%:M.
Proof using Uo.
  apply/matrixP => i j; rewrite !mxE -[RHS]/((i == j :> nat)%:R) -(Uo (ltn_ord i) (ltn_ord j)).
  by apply: eq_bigr => l _; rewrite !mxE.
Qed.
Lemma Viso : mx n N Vt *m ctr (mx n N Vt) = 1%:M.
Proof using Vo.
  apply/matrixP => i j; rewrite !mxE -[RHS]/((i == j :> nat)%:R) -(Vo (ltn_ord i) (ltn_ord j)).
  by apply: eq_bigr => l _; rewrite !mxE.
Qed.
Lemma usv_bound S t x : 0 <= t -> (forall i, (i < n)%N -> 0 <= S i <= t) ->
  norm2 M (appl N (usv n U S Vt) x) <= t ^+ 2 * norm2 N x.
Proof using Uo Vo.
  move=> ht h; rewrite !norm2E vec_appl mx_usv /Ak -!mulmxA nsq_iso; last exact: Uiso.
  by apply: le_trans (nsq_dg _ h) _; rewrite ler_wpmul2l ?exprn_ge0 //; apply: bessel; exact: Viso.
Qed.
Lemma usv_low S t x : n = N -> 0 <= t -> (forall i, (i < n)%N -> t <= S i) ->
  t ^+ 2 * norm2 N x <= norm2 M (appl N (usv n U S Vt) x).
Proof using Uo Vo.
  move=> e ht h; rewrite !norm2E vec_appl mx_usv /Ak -!mulmxA (nsq_iso _ Uiso).
  apply: le_trans (nsq_dg_low _ ht h); rewrite ler_wpmul2l ?exprn_ge0 //.
  rewrite nsq_iso //; move: Viso; rewrite -e => hv; exact: mulmx1C.
Qed.
(** The row l of Vt, conjugated, is stretched by S(l). *)
Lemma usv_sing S l : (l < n)%N -> (S l)^* = S l ->
  norm2 N (fun j => (Vt l j)^*) = 1 /\ norm2 M (appl N (usv n U S Vt) (fun j => (Vt l j)^*)) = S l ^+ 2.
Proof using Uo Vo.
  move=> hl hr; have e1 : mx n N Vt *m vec N (fun j => (Vt l j)^*) = delta_mx (Ordinal hl) 0.
    apply/matrixP => i j; rewrite !mxE ord1 eqxx andbT -[RHS]/((i == Ordinal hl)%:R).
    have -> : (i == Ordinal hl) = (i == l :> nat) by rewrite -val_eqE.
    by rewrite -(Vo (ltn_ord i) hl); apply: eq_bigr => k _; rewrite !mxE.
  split.
    by rewrite -[RHS]/(true%:R) -(eqxx l) -(Vo hl hl); apply: eq_bigr => k _; rewrite norm_conjC normCK.
  rewrite norm2E vec_appl mx_usv /Ak -!mulmxA e1 (nsq_iso _ Uiso).
  rewrite /nsq (bigD1 (Ordinal hl)) //= big1 ?addr0.
    by rewrite dg_vec mxE !eqxx mulr1 /= hr expr2.
  by move=> i /negbTE hi; rewrite dg_vec mxE hi mulr0 mul0r.
Qed.
End Svd2.

Lemma held_svd Mr Nr A U S Vt : held Mr Nr A U S Vt ->
  is_svd Mr Nr A (SVDiv_getU Mr Nr U Vt) S (SVDiv_getVt Mr Nr U Vt).
Proof.
  rewrite /held /is_svd /QRDiv_QRx /SVDiv_getU /SVDiv_getVt /istrans.
  have -> : minn (maxn Mr Nr) (minn Mr Nr) = minn Mr Nr by lia.
  case: (ltnP Mr Nr) => h [h1 h2 h3 h4 h5]; split=> //.
  - move=> c c' hc hc'; have := h2 c' c hc' hc; rewrite eq_sym => <-.
    by apply: eq_bigr => i _; rewrite mulrC.
  - move=> c c' hc hc'; have := h1 c' c hc' hc; rewrite eq_sym => <-.
    by apply: eq_bigr => i _; rewrite mulrC.
  move=> i j hi hj; have := h5 j i hj hi; rewrite /trm => ->.
  by rewrite /usv; apply: eq_bigr => l _; rewrite -mulrA mulrC [S l * _]mulrC.
Qed.
End Bridge.

Section ATA.
Variable C : numClosedFieldType.
Implicit Types (A U Vt : fm C) (S : fv C).
Lemma ataP Mr Nr A U S Vt k : held Mr Nr A U S Vt -> (k <= minn Mr Nr)%N ->
  let n := minn Mr Nr in
  let B := usv k (SVDiv_getU Mr Nr U Vt) S (SVDiv_getVt Mr Nr U Vt) in
  let G := if (Mr < Nr)%N then (fun i j => \sum_(l < Nr) B i l * (B j l)^*)
           else (fun i j => \sum_(l < Mr) (B l i)^* * B l j) in
  post (fun X => penrose (mx n n G) (mx n n X)) (dpost S k n) (SVDiv_InverseATA Mr Nr S Vt k).
Proof.
  move=> H hk n B G; have [o1 o2] := held_o H; rewrite -/n in hk o1 o2.
  have Sr i : (i < k)%N -> (S i)^* = S i by move=> hi; apply: geC0_conj; apply: (S_ge0 H); rewrite -/n; lia.
  apply: post_bind; apply: post_imp (DiagLDivEqP k n S _) => // X [h1 hX] /=.
  case: (posnP n) => [n0|n0].
    by split; apply/matrixP => i j; have := ltn_ord i; rewrite {2}n0.
  have nz := h1 n0; have Vr := VkV o2 hk; set Vk := mx k n Vt in Vr.
  have e : mx k n X = dg k (sinv S) *m Vk.
    by rewrite dgM; apply/matrixP => i j; rewrite !mxE hX !ltn_ord /= mulrC.
  have ds : ctr (dg k S) = dg k S by apply: ctr_dg.
  have di : ctr (dg k (sinv S)) = dg k (sinv S).
    by apply: ctr_dg => i hi; rewrite /sinv fmorphV Sr.
  have e1 : dg k S *m dg k (sinv S) = 1%:M by rewrite dg_dg dg1 // => i hi; rewrite mulfV // nz.
  have e2 : dg k (sinv S) *m dg k S = 1%:M by rewrite dg_dg dg1 // => i hi; rewrite mulVf // nz.
  pose G0 := ctr Vk *m dg k S *m dg k S *m Vk.
  pose P0 := ctr Vk *m dg k (sinv S) *m dg k (sinv S) *m Vk.
  have gp : G0 *m P0 = ctr Vk *m Vk.
    by rewrite /G0 /P0 -!mulmxA (mulmxA Vk) Vr mul1mx (mulmxA (dg k S) (dg k (sinv S))) e1 mul1mx
       (mulmxA (dg k S) (dg k (sinv S))) e1 mul1mx.
  have pg : P0 *m G0 = ctr Vk *m Vk.
    by rewrite /G0 /P0 -!mulmxA (mulmxA Vk) Vr mul1mx (mulmxA (dg k (sinv S)) (dg k S)) e2 mul1mx
       (mulmxA (dg k (sinv S)) (dg k S)) e2 mul1mx.
  have pen : penrose G0 P0.
    split; rewrite ?gp ?pg.
    - by rewrite /G0 -!mulmxA (mulmxA Vk) Vr mul1mx.
    - by rewrite /P0 -!mulmxA (mulmxA Vk) Vr mul1mx.
    - by rewrite ctrM ctrK.
    - by rewrite ctrM ctrK.
  have pP : ctr (mx k n X) *m mx k n X = P0 by rewrite e ctrM di !mulmxA.
  have UU := UkU o1 hk.
  have gG : ctr (Ak (maxn Mr Nr) n U S Vt k) *m Ak (maxn Mr Nr) n U S Vt k = G0.
    rewrite /Ak !ctrM ds /G0 -/Vk !mulmxA -(mulmxA (ctr Vk *m dg k S)) UU mulmx1.
    by [].
  move: n0 hk o1 o2 nz Vr e pP UU gG; rewrite /istrans /G /B /SVDiv_getU /SVDiv_getVt /istrans.
  case: (ltnP Mr Nr) => h n0 hk o1 o2 nz Vr e pP UU gG.
    have -> : mx n n (fun i j => \sum_(0 <= l < k) X l i * (X l j)^*) = P0^T.
      rewrite -pP; apply/matrixP => i j; rewrite !mxE big_mkord; apply: eq_bigr => l _.
      by rewrite !mxE mulrC.
    have -> : mx n n (fun i j => \sum_(l < Nr) usv k (trm Vt) S (trm U) i l * (usv k (trm Vt) S (trm U) j l)^*) = G0^T.
      have e3 : maxn Mr Nr = Nr by lia.
      rewrite -gG ?e3 -mx_usv; apply/matrixP => i j; rewrite !mxE; apply: eq_bigr => l _.
      have tr a b : usv k (trm Vt) S (trm U) a b = usv k U S Vt b a.
        by rewrite /usv /trm; apply: eq_bigr => q _; rewrite -mulrA mulrC [S q * _]mulrC.
      by rewrite !mxE !tr mulrC.
    exact: penroseT.
  have -> : mx n n (fun i j => \sum_(0 <= l < k) (X l i)^* * X l j) = P0.
    by rewrite -pP; apply/matrixP => i j; rewrite !mxE big_mkord; apply: eq_bigr => l _; rewrite !mxE.
  have -> : mx n n (fun i j => \sum_(l < Mr) (usv k U S Vt l i)^* * usv k U S Vt l j) = G0.
    have e3 : maxn Mr Nr = Mr by lia.
    by rewrite -gG ?e3 -mx_usv; apply/matrixP => i j; rewrite !mxE; apply: eq_bigr => l _; rewrite !mxE.
  by [].
Qed.
End ATA.

Section Common.
Variable C : numClosedFieldType.
Implicit Types (A U Vt m : fm C) (S : fv C).
(** The matrix A with the singular values from kmax on replaced by zero. *)
Definition truncated (Mr Nr : nat) U S Vt kmax : fm C :=
  usv kmax (SVDiv_getU Mr Nr U Vt) S (SVDiv_getVt Mr Nr U Vt).
Lemma thresh_le Mr Nr A U S Vt toler : held Mr Nr A U S Vt ->
  (SVDiv_thresh (minn Mr Nr) S toler <= minn Mr Nr)%N.
Proof. by move=> H; rewrite /SVDiv_thresh; case: eqP => [->|_] //; apply: thr_le. Qed.
Lemma thresh_nz Mr Nr A U S Vt toler : held Mr Nr A U S Vt -> 0 <= toler ->
  forall i, (i < SVDiv_thresh (minn Mr Nr) S toler)%N -> S i != 0.
Proof.
  move=> H ht i; rewrite /SVDiv_thresh; case: eqP => [//|/eqP n0] hi.
  have t0 : 0 <= S 0%N * toler by rewrite mulr_ge0 // (S_ge0 H) // lt0n.
  by have := thr_above H (leqnn _) (ger0_real t0) hi; move/(le_lt_trans t0)/lt0r_neq0.
Qed.
Lemma mnls_col Mr Nr K B (P : 'M[C]_(Nr, Mr)) X m c : penrose (mx Mr Nr B) P -> mx Nr K X = P *m mx Mr K m ->
  (c < K)%N -> mnls Mr Nr B (fun k => X k c) (fun i => m i c).
Proof.
  move=> pen e hc; apply: (mnlsP pen).
  by rewrite (Claims_QR.vec_mx Nr X hc hc) (Claims_QR.vec_mx Mr m hc hc) e colM.
Qed.
Lemma mnls_row Mr Nr K B (P : 'M[C]_(Nr, Mr)) X m c : penrose (mx Mr Nr B) P -> mx K Mr X = mx K Nr m *m P ->
  (c < K)%N -> mnls Nr Mr (trm B) (fun k => X c k) (fun i => m c i).
Proof.
  move=> /penroseT; rewrite -(mx_trm _ _ B) => pen e hc.
  apply: (@mnls_col Nr Mr K (trm B) P^T (trm X) (trm m) c) => //.
  by rewrite (mx_trm _ _ X) e trmx_mul -(mx_trm _ _ m).
Qed.
End Common.

(** getU() getS() getVt() is a singular value decomposition of A, whatever its shape. *)
Theorem C51_factors (C : numClosedFieldType) (Mr Nr : nat) (A U Vt : fm C) (S : fv C) :
  is_svd (maxn Mr Nr) (minn Mr Nr) (if (Mr < Nr)%N then trm A else A) U S Vt ->
  is_svd Mr Nr A (SVDiv_getU Mr Nr U Vt) S (SVDiv_getVt Mr Nr U Vt).
Proof. exact: held_svd. Qed.
Print Assumptions C51_factors.

(** After thresh(toler), m / A is the minimum norm least squares solution for the matrix
    without the dropped singular values, for every shape and rank; it never throws. *)
Theorem C51_left_division (C : numClosedFieldType) (Mr Nr K : nat) (A U Vt m x0 : fm C) (S : fv C) (toler : C) :
  is_svd (maxn Mr Nr) (minn Mr Nr) (if (Mr < Nr)%N then trm A else A) U S Vt -> 0 <= toler ->
  let kmax := SVDiv_thresh (minn Mr Nr) S toler in
  match SVDiv_LDiv Mr Nr K U S Vt kmax m x0 with
  | Ok X => forall c, (c < K)%N ->
      mnls Mr Nr (usv kmax (SVDiv_getU Mr Nr U Vt) S (SVDiv_getVt Mr Nr U Vt)) (fun k => X k c) (fun i => m i c)
  | _ => False
  end.
Proof.
  move=> H ht kmax; have [P [pen hL _ _]] := genP H (thresh_le toler H).
  have nz := thresh_nz H ht; have {}pen := pen nz.
  have := hL K m x0; rewrite -/kmax; case: (SVDiv_LDiv _ _ _ _ _ _ _ _ _) => [X|e|] //=.
    by move=> [_ e] c hc; apply: mnls_col pen e hc.
  by move=> [_ _ [i hi z]]; have := nz i hi; rewrite z eqxx.
Qed.
Print Assumptions C51_left_division.

(** m % A (x A = m), the same on rows. *)
Theorem C51_right_division (C : numClosedFieldType) (Mr Nr K : nat) (A U Vt m x0 : fm C) (S : fv C) (toler : C) :
  is_svd (maxn Mr Nr) (minn Mr Nr) (if (Mr < Nr)%N then trm A else A) U S Vt -> 0 <= toler ->
  let kmax := SVDiv_thresh (minn Mr Nr) S toler in
  match SVDiv_RDiv Mr Nr K U S Vt kmax m x0 with
  | Ok X => forall r, (r < K)%N ->
      mnls Nr Mr (trm (usv kmax (SVDiv_getU Mr Nr U Vt) S (SVDiv_getVt Mr Nr U Vt))) (fun k => X r k) (fun j => m r j)
  | _ => False
  end.
Proof.
  move=> H ht kmax; have [P [pen _ _ hR]] := genP H (thresh_le toler H).
  have nz := thresh_nz H ht; have {}pen := pen nz.
  have := hR K m x0; rewrite -/kmax; case: (SVDiv_RDiv _ _ _ _ _ _ _ _ _) => [X|e|] //=.
    by move=> [_ e] r hr; apply: mnls_row pen e hr.
  by move=> [_ _ [i hi z]]; have := nz i hi; rewrite z eqxx.
Qed.
Print Assumptions C51_right_division.

(** inverse(): the Moore-Penrose inverse, for every shape and rank. *)
Theorem C51_inverse (C : numClosedFieldType) (Mr Nr : nat) (A U Vt x0 : fm C) (S : fv C) (toler : C) :
  is_svd (maxn Mr Nr) (minn Mr Nr) (if (Mr < Nr)%N then trm A else A) U S Vt -> 0 <= toler ->
  let kmax := SVDiv_thresh (minn Mr Nr) S toler in
  match SVDiv_Inverse Mr Nr U S Vt kmax x0 with
  | Ok X => mpinv Mr Nr (usv kmax (SVDiv_getU Mr Nr U Vt) S (SVDiv_getVt Mr Nr U Vt)) X
  | _ => False
  end.
Proof.
  move=> H ht kmax; have [P [pen _ hI _]] := genP H (thresh_le toler H).
  have nz := thresh_nz H ht; have {}pen := pen nz.
  have := hI x0; rewrite -/kmax; case: (SVDiv_Inverse _ _ _ _ _ _ _) => [X|e|] //=.
    by move=> [_ e]; apply: mpinvP; rewrite e.
  by move=> [_ _ [i hi z]]; have := nz i hi; rewrite z eqxx.
Qed.
Print Assumptions C51_inverse.

(** makeInverseATA: the Moore-Penrose inverse of A^dagger A, or of A A^dagger when A has
    fewer rows than columns. *)
Theorem C51_inverse_ATA (C : numClosedFieldType) (Mr Nr : nat) (A U Vt : fm C) (S : fv C) (toler : C) :
  is_svd (maxn Mr Nr) (minn Mr Nr) (if (Mr < Nr)%N then trm A else A) U S Vt -> 0 <= toler ->
  let kmax := SVDiv_thresh (minn Mr Nr) S toler in
  let B := usv kmax (SVDiv_getU Mr Nr U Vt) S (SVDiv_getVt Mr Nr U Vt) in
  match SVDiv_InverseATA Mr Nr S Vt kmax with
  | Ok X =>
    let ata := if (Mr < Nr)%N then (fun i j => \sum_(l < Nr) B i l * (B j l)^*)
               else (fun i j => \sum_(l < Mr) (B l i)^* * B l j) in
    mpinv (minn Mr Nr) (minn Mr Nr) ata X
  | _ => False
  end.
Proof.
  move=> H ht kmax B; have nz := thresh_nz H ht.
  have := ataP H (thresh_le toler H); rewrite -/kmax.
  case: (SVDiv_InverseATA _ _ _ _ _) => [X|e|] //=; first by move=> pen; apply: mpinvP.
  by move=> [_ _ [i hi z]]; have := nz i hi; rewrite z eqxx.
Qed.
Print Assumptions C51_inverse_ATA.

(** What thresh(toler) leaves out is small: the truncated matrix differs from A by an
    operator of norm at most toler * norm2(); with toler = 0 it is A itself. *)
Theorem C51_truncation (C : numClosedFieldType) (Mr Nr : nat) (A U Vt : fm C) (S : fv C) (toler : C) :
  is_svd (maxn Mr Nr) (minn Mr Nr) (if (Mr < Nr)%N then trm A else A) U S Vt -> 0 <= toler ->
  let kmax := SVDiv_thresh (minn Mr Nr) S toler in
  let B := usv kmax (SVDiv_getU Mr Nr U Vt) S (SVDiv_getVt Mr Nr U Vt) in
  (forall x : fv C, norm2 Mr (appl Nr (fun i j => A i j - B i j) x) <=
     (toler * SVDiv_norm2 (minn Mr Nr) S) ^+ 2 * norm2 Nr x) /\
  (toler = 0 -> forall i j, (i < Mr)%N -> (j < Nr)%N -> B i j = A i j).
Proof.
  move=> H ht kmax B; have [o1 o2 s1 s2 fa] := held_svd H; set n := minn Mr Nr in o1 o2 s1 s2 fa kmax B *.
  pose S' : fv C := fun l => if (l < kmax)%N then 0 else S l.
  have hk : (kmax <= n)%N := thresh_le toler H.
  have dif i j : (i < Mr)%N -> (j < Nr)%N ->
      A i j - B i j = usv n (SVDiv_getU Mr Nr U Vt) S' (SVDiv_getVt Mr Nr U Vt) i j.
    move=> hi hj; rewrite fa // /B /usv -(subnKC hk) !big_split_ord /=.
    rewrite addrAC subrr add0r [X in _ = X + _]big1 ?add0r => [|l _]; last first.
      by rewrite /S' ltn_ord mulr0 mul0r.
    by apply: eq_bigr => l _; rewrite /S' ltnNge leq_addr.
  have bd l : (l < n)%N -> 0 <= S' l <= toler * SVDiv_norm2 n S.
    move=> hl; have n0 : (0 < n)%N by lia.
    have t0 : 0 <= toler * S 0%N by rewrite mulr_ge0 // s1.
    rewrite /S' /SVDiv_norm2 n0; case: ltnP => hlk; first by rewrite lexx t0.
    rewrite s1 //=; move: hlk; rewrite /kmax /SVDiv_thresh (gtn_eqF n0) mulrC => hlk.
    by apply: (thr_below H (leqnn n)); rewrite hlk hl.
  split=> [x|e].
    have tn : 0 <= toler * SVDiv_norm2 n S.
      by rewrite /SVDiv_norm2; case: ltnP => h; rewrite mulr_ge0 // s1.
    have := usv_bound o1 o2 x tn bd; congr (_ <= _).
    apply: eq_bigr => i _; congr (`|_| ^+ 2); apply: eq_bigr => j _; by rewrite dif.
  move=> i j hi hj; apply/eqP; rewrite eq_sym -subr_eq0 dif // /usv big1 // => l _.
  have := bd l (ltn_ord l); rewrite e mul0r => h; have -> : S' l = 0 by apply/esym/le_anti.
  by rewrite mulr0 mul0r.
Qed.
Print Assumptions C51_truncation.

(** norm2() is the operator norm; condition() is the ratio of the largest to the smallest
    factor by which A (its transpose, when A is wide) stretches a vector. *)
Theorem C51_norms (C : numClosedFieldType) (Mr Nr : nat) (A U Vt : fm C) (S : fv C) :
  is_svd (maxn Mr Nr) (minn Mr Nr) (if (Mr < Nr)%N then trm A else A) U S Vt -> (0 < minn Mr Nr)%N ->
  max_stretch Mr Nr A (SVDiv_norm2 (minn Mr Nr) S) /\
  exists s, [/\ (Nr <= Mr)%N -> min_stretch Mr Nr A s, (Mr < Nr)%N -> min_stretch Nr Mr (trm A) s &
                SVDiv_condition (minn Mr Nr) S = SVDiv_norm2 (minn Mr Nr) S / s].
Proof.
  move=> H n0; have [o1 o2 s1 s2 fa] := held_svd H; set n := minn Mr Nr in o1 o2 s1 s2 fa n0 *.
  have ex M N (A1 A2 : fm C) x : (forall i j, (i < M)%N -> (j < N)%N -> A1 i j = A2 i j) ->
      norm2 M (appl N A1 x) = norm2 M (appl N A2 x).
    by move=> h; apply: eq_bigr => i _; congr (`|_| ^+ 2); apply: eq_bigr => j _; rewrite h.
  have mono i : (i < n)%N -> 0 <= S i <= S 0%N by move=> hi; rewrite s1 // (S_mono H).
  split.
    rewrite /SVDiv_norm2 n0; split; first exact: s1.
      by move=> x; rewrite (ex _ _ _ _ x fa); apply: usv_bound => //; apply: s1.
    have [g1 g2] := usv_sing o1 o2 n0 (geC0_conj (s1 _ n0)).
    by exists (fun j => (SVDiv_getVt Mr Nr U Vt 0%N j)^*); rewrite (ex _ _ _ _ _ fa).
  have hl : (n.-1 < n)%N by lia.
  have low i : (i < n)%N -> S n.-1 <= S i by move=> hi; apply: (S_mono H) => //; lia.
  exists (S n.-1); rewrite /SVDiv_condition /SVDiv_norm2 n0; split=> // h.
    have en : n = Nr by rewrite /n; lia.
    split; first exact: s1.
      by move=> x; rewrite (ex _ _ _ _ x fa); apply: usv_low => //; apply: s1.
    have [g1 g2] := usv_sing o1 o2 hl (geC0_conj (s1 _ hl)).
    by exists (fun j => (SVDiv_getVt Mr Nr U Vt n.-1 j)^*); rewrite (ex _ _ _ _ _ fa).
  have en : n = Mr by rewrite /n; lia.
  have e1 : minn (maxn Mr Nr) (minn Mr Nr) = n by rewrite /n; lia.
  have e2 : maxn Mr Nr = Nr by lia.
  move: H; rewrite /is_svd e1 e2 h -/n => -[p1 p2 _ _ fb].
  split; first exact: s1.
    by move=> x; rewrite -en (ex _ _ _ _ x fb); apply: usv_low => //; apply: s1.
  have [g1 g2] := usv_sing p1 p2 hl (geC0_conj (s1 _ hl)).
  by exists (fun j => (Vt n.-1 j)^*); rewrite -en (ex _ _ _ _ _ fb).
Qed.
Print Assumptions C51_norms.

(** isSingular() after thresh(toler): the smallest singular value is at most toler times
    the largest; with toler = 0, exactly when A has not full rank. *)
Theorem C51_singular (C : numClosedFieldType) (Mr Nr : nat) (A U Vt : fm C) (S : fv C) (toler : C) :
  is_svd (maxn Mr Nr) (minn Mr Nr) (if (Mr < Nr)%N then trm A else A) U S Vt -> 0 <= toler ->
  let n := minn Mr Nr in
  (SVDiv_isSingular n (SVDiv_thresh n S toler) <-> (0 < n)%N /\ S n.-1 <= toler * SVDiv_norm2 n S) /\
  (toler = 0 -> SVDiv_isSingular n (SVDiv_thresh n S toler) <-> ~ fullrank Mr Nr A).
Proof.
  move=> H ht n.
  have first : SVDiv_isSingular n (SVDiv_thresh n S toler) <-> (0 < n)%N /\ S n.-1 <= toler * SVDiv_norm2 n S.
    rewrite /SVDiv_isSingular /SVDiv_thresh /SVDiv_norm2; case: (posnP n) => [->|n0]; first by split=> // -[].
    case En : n n0 => [//|k] _ /=; rewrite [S 0%N * _]mulrC; case: ifP => h.
      by split=> // _; apply: leq_ltn_trans (thr_le _ _ _) _.
    by rewrite ltnn; split=> // -[].
  split=> // e; rewrite first e mul0r {first ht e}.
  have e1 : minn (maxn Mr Nr) (minn Mr Nr) = n by rewrite /n; lia.
  have FR : fullrank Mr Nr A <-> indep (maxn Mr Nr) n (if (Mr < Nr)%N then trm A else A).
    by rewrite /fullrank /n; case: ltnP => h.
  rewrite FR; case: (H); rewrite e1 => p1 p2 s1 s2 fa.
  have ex x : norm2 (maxn Mr Nr) (appl n (if (Mr < Nr)%N then trm A else A) x) = norm2 (maxn Mr Nr) (appl n (usv n U S Vt) x).
    by apply: eq_bigr => i _; congr (`|_| ^+ 2); apply: eq_bigr => j _; rewrite fa // -/n.
  have norm0 M (x : fv C) : norm2 M x = 0 -> forall i, (i < M)%N -> x i = 0.
    move=> h i hi; have := nsq0 (etrans (esym (norm2E M x)) h) => /matrixP/(_ (Ordinal hi) 0).
    by rewrite !mxE.
  split=> [[n0 hz] hi|nf].
    have hl : (n.-1 < n)%N by lia.
    have z : S n.-1 = 0 by apply: le_anti; rewrite hz s1.
    have [g1 g2] := usv_sing p1 p2 hl (geC0_conj (s1 _ hl)).
    have Az i : (i < maxn Mr Nr)%N -> \sum_(k < n) (if (Mr < Nr)%N then trm A else A) i k * (Vt n.-1 k)^* = 0.
      move=> hii; apply: (norm0 (maxn Mr Nr) (appl n (if (Mr < Nr)%N then trm A else A) (fun k => (Vt n.-1 k)^*))) => //.
      by rewrite ex g2 z expr0n.
    have vz := hi (fun k => (Vt n.-1 k)^*) Az; move: g1; rewrite /norm2 big1 => [/eqP|k _]; first by rewrite eq_sym oner_eq0.
    by rewrite vz // normr0 expr0n.
  case: (posnP n) => [n0|n0]; first by case: nf => x _ k; rewrite n0.
  have hl : (n.-1 < n)%N by lia.
  split=> //; rewrite real_leNgt ?real0 ?ger0_real ?s1 //; apply/negP => pos; case: nf => x hx.
  have low i : (i < n)%N -> S n.-1 <= S i by move=> hi; apply: (S_mono H) => //; rewrite -/n; lia.
  have := usv_low p1 p2 x (erefl n) (s1 _ hl) low; rewrite -ex.
  have -> : norm2 (maxn Mr Nr) (appl n (if (Mr < Nr)%N then trm A else A) x) = 0.
    by rewrite /norm2 big1 // => i _; rewrite /appl hx // normr0 expr0n.
  rewrite pmulr_rle0 ?exprn_gt0 // => hle; apply: norm0; apply: le_anti; rewrite hle.
  by rewrite norm2E nsq_ge0.
Qed.
Print Assumptions C51_singular.

(** After top(neigen): the same with exactly that many singular values; it throws Singular
    when one of these is zero. *)
Theorem C51_top (C : numClosedFieldType) (Mr Nr K neigen : nat) (A U Vt m x0 : fm C) (S : fv C) :
  is_svd (maxn Mr Nr) (minn Mr Nr) (if (Mr < Nr)%N then trm A else A) U S Vt -> (0 < neigen)%N ->
  let kmax := SVDiv_top (minn Mr Nr) neigen in
  kmax = minn neigen (minn Mr Nr) /\
  match SVDiv_LDiv Mr Nr K U S Vt kmax m x0 with
  | Ok X => forall c, (c < K)%N ->
      mnls Mr Nr (usv kmax (SVDiv_getU Mr Nr U Vt) S (SVDiv_getVt Mr Nr U Vt)) (fun k => X k c) (fun i => m i c)
  | Throw e => e = Singular /\ S kmax.-1 = 0
  | UB => False
  end.
Proof.
  move=> H hn kmax; have ek : kmax = minn neigen (minn Mr Nr) by rewrite /kmax /SVDiv_top; case: ltnP; lia.
  split=> //; have hk : (kmax <= minn Mr Nr)%N by lia.
  have [P [pen hL _ _]] := genP H hk.
  have := hL K m x0; case: (SVDiv_LDiv _ _ _ _ _ _ _ _ _) => [X|e|] //=.
    by move=> [nz e] c hc; have K0 : (0 < K)%N := leq_ltn_trans (leq0n c) hc; apply: mnls_col (pen (nz K0)) e hc.
  move=> [-> _ [i hi z]]; split=> //; apply: le_anti; rewrite (S_ge0 H) ?andbT; last by lia.
  by rewrite -z; apply: (S_mono H); lia.
Qed.
Print Assumptions C51_top.

(** For a matrix that is not zero, and toler < 1, checkDecomp() scales by S(0) over the
    smallest of the singular values that thresh(toler) keeps. *)
Theorem C51_check_decomp_partial (C : numClosedFieldType) (Mr Nr : nat) (A U Vt : fm C) (S : fv C) (toler : C) :
  is_svd (maxn Mr Nr) (minn Mr Nr) (if (Mr < Nr)%N then trm A else A) U S Vt ->
  (0 < minn Mr Nr)%N -> 0 < S 0%N -> 0 <= toler -> toler < 1 ->
  exists k, [/\ (k < minn Mr Nr)%N, SVDiv_checkCond S (SVDiv_thresh (minn Mr Nr) S toler) = Ok (S 0%N / S k),
    toler * S 0%N < S k & forall l, (l < minn Mr Nr)%N -> toler * S 0%N < S l -> S k <= S l].
Proof.
  move=> H n0 s0 t0 t1; have tr : toler * S 0%N \is Num.real by apply: ger0_real; rewrite mulr_ge0 // ltW.
  rewrite /SVDiv_thresh (gtn_eqF n0) mulrC.
  have := thr_le S (toler * S 0%N) (minn Mr Nr).
  have := thr_above (H : held Mr Nr A U S Vt) (leqnn _) tr.
  have := thr_below (H : held Mr Nr A U S Vt) (t := toler * S 0%N) (leqnn _).
  case E : (thr _ _ _) => [|k] hb ha hk.
    have : toler * S 0%N < S 0%N by rewrite gtr_pmull.
    by move/lt_le_trans/(_ (hb 0%N n0)); rewrite ltxx.
  exists k; split=> //; first by apply: ha.
  move=> l hl h; case: (leqP l k) => hlk; first by apply: (S_mono (H : held Mr Nr A U S Vt)).
  by have := lt_le_trans h (hb l _); rewrite ltxx hl hlk => /(_ isT).
Qed.
Print Assumptions C51_check_decomp_partial.

(** checkDecomp() on a matrix whose singular values are all zero reads S(-1). *)
Theorem C51_check_decomp_refuted (C : numClosedFieldType) (n : nat) (toler : C) : (0 < n)%N ->
  exists A U S Vt : nat -> nat -> C,
  is_svd n n A U (S 0%N) Vt /\ SVDiv_checkCond (S 0%N) (SVDiv_thresh n (S 0%N) toler) = UB.
Proof.
  move=> n0; pose I : fm C := fun i j => (i == j)%:R.
  exists (fun _ _ => 0), I, (fun _ _ => 0), I; split; last first.
    rewrite /SVDiv_thresh (gtn_eqF n0).
    have E k : thr (fun _ => 0 : C) 0 k = 0%N by elim: k => [|k IH] //=; rewrite lexx.
    by rewrite mul0r E.
  have e : minn n n = n by lia.
  rewrite /is_svd e; split=> //.
  - move=> c c' hc hc'; rewrite (bigD1 (Ordinal hc)) //= /I eqxx conjC1 mul1r big1 ?addr0 // => i hi.
    by rewrite (_ : (val i == c) = false) ?conjC0 ?mul0r //; apply/eqP => h; case/eqP: hi; apply: val_inj.
  - move=> c c' hc hc'; rewrite (bigD1 (Ordinal hc)) //= /I eqxx mul1r [c' == c]eq_sym big1 ?addr0 => [|i hi].
      by case: eqP; rewrite ?conjC1 ?conjC0.
    by rewrite (_ : (c == val i) = false) ?mul0r //; apply/eqP => h; case/eqP: hi; apply: val_inj.
  by move=> i j hi hj; rewrite /usv big1 // => l _; rewrite mulr0 mul0r.
Qed.
Print Assumptions C51_check_decomp_refuted.

(** The hypotheses are met: the column (3,4) has U = (3/5,4/5), S = 5, Vt = 1, so that
    (3,4) / A = 1; and its transpose, 1 x 2, is held with the same factors. *)
Definition ex_u : fm algC := fun i _ => (if i == 0%N then 3%:R else 4%:R) / 5%:R.
Definition ex_a : fm algC := fun i _ => if i == 0%N then 3%:R else 4%:R.
Example ex_svd : is_svd 2 1 ex_a ex_u (fun _ => 5%:R) (fun _ _ => 1).
Proof.
  have n5 : 5%:R != 0 :> algC by rewrite pnatr_eq0.
  have c5 n : (n%:R / 5%:R : algC)^* = n%:R / 5%:R by rewrite geC0_conj // divr_ge0 // ler0n.
  split=> /=.
  - move=> [|c] [|c'] // _ _; rewrite !big_ord_recl big_ord0 /ex_u /= !c5 addr0.
    have -> : 3%:R / 5%:R * (3%:R / 5%:R) + 4%:R / 5%:R * (4%:R / 5%:R) = (5%:R / 5%:R) * (5%:R / 5%:R) :> algC.
      rewrite !mulrA -[3%:R / _ * _]mulrAC -[4%:R / _ * _]mulrAC -[5%:R / _ * _]mulrAC -!mulrDl.
      by rewrite -!natrM -natrD.
    by rewrite divff // mulr1.
  - by move=> [|c] [|c'] // _ _; rewrite big_ord_recl big_ord0 conjC1 mulr1 addr0.
  - by move=> k _; rewrite ler0n.
  - by move=> k; rewrite ltnS ltn0.
  move=> i [|j] // hi _; rewrite /usv big_ord_recl big_ord0 mulr1 addr0 /ex_u /ex_a divfK //.
Qed.
Example ex_svd_wide : is_svd (maxn 1 2) (minn 1 2) (if (1 < 2)%N then trm (trm ex_a) else trm ex_a) ex_u (fun _ => 5%:R) (fun _ _ => 1).
Proof. exact: ex_svd. Qed.
