From Coq Require Import Ring Field.
From Verif Require Import Base FMat RingTac Cplx LUDiv QR QRProofs QRDiv QRDivProofs Bidiag.
From mathcomp Require Import all_ssreflect all_algebra zify.
Set Implicit Arguments. Unset Strict Implicit. Unset Printing Implicit Defensive.
Import GRing.Theory Num.Theory.
Local Open Scope ring_scope.

Section P.
Variable C : numClosedFieldType.
Variable under : C -> bool.
Implicit Types (A U Vt X : fm C) (z zU zV D E : fv C).

Lemma ifE (T : Type) (b b' : bool) (x y : T) : b = b' -> (if b then x else y) = (if b' then x else y).
Proof. by move=> ->. Qed.

Lemma Hm_shift P (A : fm C) zz k (x y x' y' : 'cV[C]_P) :
  (forall i : 'I_P, (k <= i)%N -> x' i 0 = x i 0 /\ y' i 0 = y i 0) ->
  (forall i : 'I_P, (i < k)%N -> x i 0 = y i 0 /\ x' i 0 = y' i 0) ->
  Hm zz (yv P A k) *m x = y -> Hm zz (yv P A k) *m x' = y'.
Proof.
  move=> h1 h2 e; have -> : x' = x + (x' - x) by rewrite addrC subrK.
  rewrite mulmxDr e Hm_fix; last first.
    by apply: yv_perp => i hi; rewrite !mxE; have [-> _] := h1 i hi; rewrite subrr.
  apply/matrixP => i j; rewrite !mxE ord1; case: (leqP k i) => hi.
    by have [-> ->] := h1 i hi; rewrite subrr addr0.
  by have [-> ->] := h2 i hi; rewrite addrC subrK.
Qed.

(** The array A after k reflections from the left and l from the right, without the vectors
    of the reflections. *)
Definition cl (k l : nat) A : fm C := fun i c =>
  if ((c < k) && (c < i))%N || ((i < l) && (i.+1 < c))%N then 0 else A i c.
Definition cols1 A : fm C := fun i c => A i c.+1.

Variables M N : nat.
Hypothesis hN : (0 < N)%N.
Hypothesis hM : (N <= M)%N.
Let N1 := (N - 1)%N.

Record binv (k l : nat) A0 A zU zV (d0 d : C) : Prop := BI {
  bi_u : forall i, (i < k)%N -> unit_mx (Hm (zU i) (yv M A i));
  bi_v : forall i, (i < l)%N -> unit_mx (Hm (zV i) (yv N1 (tsub A) i));
  bi_f0 : Pr M A zU 0 k *m colv M (cl k l A) 0 = colv M A0 0;
  bi_f1 : Pr M A zU 0 k *m mx M N1 (cols1 (cl k l A)) *m (Pr N1 (tsub A) zV 0 l)^T = mx M N1 (cols1 A0);
  bi_rd : forall i, (i < k)%N -> A i i \is Num.real;
  bi_re : forall i, (i < l)%N -> A i i.+1 \is Num.real;
  bi_zu : forall j i, (j < k)%N -> zU j = 0 -> (j < i < M)%N -> A i j = 0;
  bi_zv : forall j i, (j < l)%N -> zV j = 0 -> (j < i < N1)%N -> tsub A i j = 0;
  bi_fr : forall i c, ~~ ((i < M) && (c < N))%N -> A i c = A0 i c;
  bi_det : d = d0 * \det (Pr M A zU 0 k) * \det (Pr N1 (tsub A) zV 0 l) }.

Lemma binv0 A z z' d : binv 0 0 A A z z' d d.
Proof.
  split=> //=; rewrite ?det1 ?mulr1 ?trmx1 ?mulmx1 ?mul1mx //.
Qed.

Lemma binv_ext k l A0 A zU zV zU' zV' d0 d : (forall i, (i < k)%N -> zU i = zU' i) ->
  (forall i, (i < l)%N -> zV i = zV' i) -> binv k l A0 A zU zV d0 d -> binv k l A0 A zU' zV' d0 d.
Proof.
  move=> h1 h2 [u v f0 f1 rd re zu zv fr D].
  have e1 : Pr M A zU 0 k = Pr M A zU' 0 k by apply: Pr_ext => // i hi; apply: h1; lia.
  have e2 : Pr N1 (tsub A) zV 0 l = Pr N1 (tsub A) zV' 0 l by apply: Pr_ext => // i hi; apply: h2; lia.
  split=> //; rewrite -?e1 -?e2 //.
  - by move=> i hi; rewrite -h1 //; apply: u.
  - by move=> i hi; rewrite -h2 //; apply: v.
  - by move=> j i hj; rewrite -h1 //; apply: zu.
  - by move=> j i hj; rewrite -h2 //; apply: zv.
Qed.

(** A reflection from the left. *)
Lemma binv_left k A0 A A1 zU zV d0 d d1 : (k < N)%N -> binv k k A0 A zU zV d0 d ->
  qinv M k 1 N A A1 zU d d1 -> binv k.+1 k A0 A1 zU zV d0 d1.
Proof.
  move=> hk [u v f0 f1 rd re zu zv fr D] [q1 q2 q3 q4 q5 q6 q7].
  have kM : (k < M)%N by lia.
  have [e1 e2] : (forall i c, (i < k)%N -> A1 i c = A i c) /\ (forall i c, (c < k)%N -> A1 i c = A i c).
    by split=> i c hi; apply: q4; lia.
  have eP : Pr M A1 zU 0 k.+1 = Pr M A zU 0 k *m Hm (zU k) (yv M A1 k).
    rewrite -addn1 Pr_cat /= mulmx1 add0n; congr (_ *m _).
    by apply: Pr_ext => // i j hj hi; apply: e2; lia.
  have eV : Pr N1 (tsub A1) zV 0 k = Pr N1 (tsub A) zV 0 k.
    by apply: Pr_ext => // i j hj hi; rewrite /tsub e1 //; lia.
  have col c : (c < N)%N -> Hm (zU k) (yv M A1 k) *m colv M (cl k.+1 k A1) c = colv M (cl k k A) c.
    move=> hc; case: (ltngtP c k) => hck.
    - have -> : colv M (cl k.+1 k A1) c = colv M (cl k k A) c.
        by apply/matrixP => i j; rewrite !mxE /cl e2 //; apply: ifE; lia.
      apply: Hm_fix; apply: yv_perp => i hi; rewrite mxE /cl hck /=.
      by have -> : (c < i)%N by lia.
    - have hcc : (k + 1 <= c < N)%N by lia.
      move: (q3 c hcc); rewrite /= mulmx1; apply: Hm_shift => i hi; rewrite !mxE /cl.
        have -> : (c < k.+1)%N = false by lia.
        have -> : (c < k)%N = false by lia.
        by have -> : (i < k)%N = false by lia.
      rewrite e1 //; split=> //; apply: ifE; lia.
    - have hcc : (k <= k < k + 1)%N by lia.
      rewrite hck; move: (q2 k hcc); rewrite /= mulmx1; apply: Hm_shift => i hi; rewrite !mxE /cl.
        rewrite ltnSn ltnn /=; have -> : (i < k)%N = false by lia.
        rewrite orbF /=; split=> //; by case: (ltnP k i).
      have hi' : (i <= k)%N by lia.
      rewrite hi' e1 //; split=> //; apply: ifE; lia.
  have mcol : Hm (zU k) (yv M A1 k) *m mx M N1 (cols1 (cl k.+1 k A1)) = mx M N1 (cols1 (cl k k A)).
    apply/matrixP => i c; have hc : (c.+1 < N)%N by have := ltn_ord c; rewrite /N1; lia.
    have /matrixP/(_ i 0) := col c.+1 hc; rewrite !mxE /cols1 => <-.
    by apply: eq_bigr => j _; rewrite !mxE.
  split.
  - move=> i hi; case: (ltngtP i k) => hik; [|lia|by rewrite hik; apply: q1; lia].
    rewrite (@yv_ext _ _ A1 A); first exact: u.
    by move=> r hr; apply: e2.
  - move=> i hi; rewrite (@yv_ext _ _ (tsub A1) (tsub A)); first exact: v.
    by move=> r hr; rewrite /tsub e1 //; lia.
  - by rewrite eP -mulmxA col.
  - by rewrite eP eV -(mulmxA (Pr M A zU 0 k)) mcol.
  - move=> i hi; case: (ltngtP i k) => hik; [|lia|by rewrite hik; apply: q5; lia].
    by rewrite e1 //; apply: rd.
  - by move=> i hi; rewrite e1 //; apply: re.
  - move=> j i hj z0 hi; case: (ltngtP j k) => hjk; [|lia|]; last first.
      by rewrite hjk in z0 hi *; apply: (q6 k) => //; lia.
    by rewrite e2 //; apply: zu.
  - by move=> j i hj z0 hi; rewrite /tsub e1 //; apply: zv.
  - by move=> i c h; rewrite q4; [apply: fr|lia].
  - have q7' : d1 = d * \det (Hm (zU k) (yv M A1 k)) by rewrite q7 /= mulmx1.
    by rewrite q7' D eP eV det_mulmx -!mulrA (mulrC (\det (Pr N1 _ _ _ _))).
Qed.

(** A reflection from the right. *)
Lemma binv_right k A0 A At1 zU zV d0 d d1 : (k.+1 < N)%N -> binv k.+1 k A0 A zU zV d0 d ->
  qinv N1 k 1 M (tsub A) At1 zV d d1 -> binv k.+1 k.+1 A0 (untsub At1 A) zU zV d0 d1.
Proof.
  move=> hk [u v f0 f1 rd re zu zv fr D] [q1 q2 q3 q4 q5 q6 q7].
  have kM : (k < N1)%N by rewrite /N1; lia.
  have e0 : tsub (untsub At1 A) = At1 by [].
  set A2 := untsub At1 A.
  have e1 i c : (i < k)%N -> A2 i c = A i c by case: c => [|c] hi //; rewrite /A2 /= q4 //; lia.
  have e2 i c : (c <= k)%N -> A2 i c = A i c by case: c => [|c] hi //; rewrite /A2 /= q4 //; lia.
  have eP : Pr M A2 zU 0 k.+1 = Pr M A zU 0 k.+1 by apply: Pr_ext => // i j hj hi; apply: e2; lia.
  have eV : Pr N1 (tsub A2) zV 0 k.+1 = Pr N1 (tsub A) zV 0 k *m Hm (zV k) (yv N1 At1 k).
    rewrite -addn1 Pr_cat /= mulmx1 add0n; congr (_ *m _).
    by apply: Pr_ext => // i j hj hi; rewrite /tsub e1 //; lia.
  have row r : (r < M)%N -> Hm (zV k) (yv N1 At1 k) *m colv N1 (tsub (cl k.+1 k.+1 A2)) r = colv N1 (tsub (cl k.+1 k A)) r.
    move=> hr; case: (ltngtP r k) => hrk.
    - have -> : colv N1 (tsub (cl k.+1 k.+1 A2)) r = colv N1 (tsub (cl k.+1 k A)) r.
        apply/matrixP => i j; rewrite !mxE /tsub /cl e1 //; apply: ifE; lia.
      apply: Hm_fix; apply: yv_perp => i hi; rewrite mxE /tsub /cl.
      by case: ifP => // /negP h; exfalso; apply: h; lia.
    - have hcc : (k + 1 <= r < M)%N by lia.
      move: (q3 r hcc); rewrite /= mulmx1; apply: Hm_shift => i hi; rewrite !mxE /tsub /cl.
        have -> : (r < k.+1)%N = false by lia.
        have -> : (r < k)%N = false by lia.
        by have -> : (i.+1 < k.+1)%N = false by lia.
      split; first by rewrite q4 //; lia.
      by case: ifP => // h1; case: ifP => // h2; exfalso; lia.
    - have hcc : (k <= k < k + 1)%N by lia.
      rewrite hrk; move: (q2 k hcc); rewrite /= mulmx1; apply: Hm_shift => i hi; rewrite !mxE /tsub /cl.
        have -> : (i.+1 < k.+1)%N = false by lia.
        rewrite ltnn ltnSn /=; split=> //; rewrite ltnS.
        by case: (ltnP k i).
      have hi' : (i <= k)%N by lia.
      rewrite hi' e2 // q4; last lia.
      split=> //; apply: ifE; lia.
  have mrow : mx M N1 (cols1 (cl k.+1 k.+1 A2)) *m (Hm (zV k) (yv N1 At1 k))^T = mx M N1 (cols1 (cl k.+1 k A)).
    apply/matrixP => i c; have /matrixP/(_ c 0) := row i (ltn_ord i); rewrite !mxE /cols1 /tsub => <-.
    by apply: eq_bigr => j _; rewrite !mxE mulrC.
  split.
  - by move=> i hi; rewrite (@yv_ext _ _ A2 A); [apply: u|move=> r hr; apply: e2; lia].
  - move=> i hi; case: (ltngtP i k) => hik; [|lia|by rewrite hik; apply: q1; lia].
    rewrite (@yv_ext _ _ (tsub A2) (tsub A)); first exact: v.
    by move=> r hr; rewrite /tsub e1 //; lia.
  - rewrite eP -f0; congr (_ *m _); apply/matrixP => i j; rewrite !mxE /cl e2 //; apply: ifE; lia.
  - by rewrite eP eV trmx_mul mulmxA -(mulmxA (Pr M A zU 0 k.+1)) mrow.
  - by move=> i hi; rewrite e2 //; apply: rd.
  - move=> i hi; case: (ltngtP i k) => hik; [|lia|]; last by rewrite hik /A2 /=; apply: q5; lia.
    by rewrite e1 //; apply: re.
  - by move=> j i hj; rewrite e2 //; apply: zu.
  - move=> j i hj z0 hi; case: (ltngtP j k) => hjk; [|lia|]; last first.
      by rewrite hjk in z0 hi *; apply: (q6 k) => //; lia.
    by rewrite /tsub e1 //; apply: zv.
  - move=> i [|c] h; rewrite /A2 /=; first exact: fr.
    by rewrite q4; [apply: (fr i c.+1 h)|move: h; rewrite /N1; lia].
  - have q7' : d1 = d * \det (Hm (zV k) (yv N1 At1 k)) by rewrite q7 /= mulmx1.
    by rewrite q7' D eP eV (det_mulmx (Pr N1 (tsub A) zV 0 k)) !mulrA.
Qed.

Lemma bstepP k A0 A ub vb d0 d : (k.+1 < N)%N -> binv k k A0 A (zb ub) (zb vb) d0 d ->
  let: (A', ub', vb', d') := bstep under M N k (A, ub, vb, d) in
  binv k.+1 k.+1 A0 A' (zb ub') (zb vb') d0 d'.
Proof.
  move=> hk B; rewrite /bstep; case E1 : hreflectM => [[A1 b1] d1]; case E2 : hreflectM => [[A2 b2] d2].
  have kM : (k < M)%N by lia.
  have kN : (k < N)%N by lia.
  have kN1 : (k < N - 1)%N by lia.
  have h1 : zb (updv ub k b1) k = b1^* by rewrite /zb /updv eqxx.
  have h2 : zb (updv vb k b2) k = b2^* by rewrite /zb /updv eqxx.
  have Q1 := hreflectMP kM kN E1 h1; have Q2 := hreflectMP kN1 kM E2 h2.
  have B1 : binv k k A0 A (zb (updv ub k b1)) (zb (updv vb k b2)) d0 d.
    apply: binv_ext B => i hi; rewrite /zb /updv ltn_eqF //.
  exact: binv_right (binv_left kN B1 Q1) Q2.
Qed.

Definition bidi D E : fm C := fun i c => if i == c then D i else if i.+1 == c then E i else 0.

Lemma bloopP A ub vb d n : (n < N)%N ->
  let: (A', ub', vb', d') := foldl (fun s j => bstep under M N j s) (A, ub, vb, d) (iota 0 n) in
  binv n n A A' (zb ub') (zb vb') d d'.
Proof.
  elim: n => [|n IH] hn; first exact: binv0.
  rewrite -[n.+1]addn1 iotaD foldl_cat add0n /=.
  move: IH; case: foldl => [[[A1 u1] v1] d1] /(_ (ltnW hn)) B.
  by have := bstepP hn B; rewrite addn1.
Qed.

(** What NonBlockBidiagonalize leaves. *)
Record bdone A0 A ub vb D E (d0 d : C) : Prop := BD {
  bd_u : unit_mx (Pr M A (zb ub) 0 N);
  bd_v : unit_mx (Pr N1 (tsub A) (zb vb) 0 N1);
  bd_f0 : Pr M A (zb ub) 0 N *m colv M (bidi D E) 0 = colv M A0 0;
  bd_f1 : Pr M A (zb ub) 0 N *m mx M N1 (cols1 (bidi D E)) *m (Pr N1 (tsub A) (zb vb) 0 N1)^T = mx M N1 (cols1 A0);
  bd_rd : forall i, (i < N)%N -> D i \is Num.real;
  bd_re : forall i, (i < N1)%N -> E i \is Num.real;
  bd_zu : forall j, (j < N)%N -> ub j = 0 -> forall i, (j < i < M)%N -> A i j = 0;
  bd_zv : forall j, (j < N1)%N -> vb j = 0 -> forall i, (j < i < N1)%N -> tsub A i j = 0;
  bd_fr : forall i c, ~~ ((i < M) && (c < N))%N -> A i c = A0 i c;
  bd_det : d = d0 * \det (Pr M A (zb ub) 0 N) * \det (Pr N1 (tsub A) (zb vb) 0 N1) }.

Lemma NonBlockBidiagonalizeP A ub vb D E d :
  let: (A', ub', vb', D', E', d') := NonBlockBidiagonalize under M N A ub vb D E d in
  bdone A A' ub' vb' D' E' d d' /\
  (forall i, (N <= i)%N -> D' i = D i) /\ (forall i, (N1 <= i)%N -> E' i = E i).
Proof.
  have h1 : (N - 1 < N)%N by lia.
  rewrite /NonBlockBidiagonalize; have := bloopP A ub vb d h1; case: foldl => [[[A1 u1] v1] d1] B.
  case E2 : hreflect => [[A2 b2] d2].
  have h2 : (N - 1 < M)%N by lia.
  have hz : zb (updv u1 (N - 1)%N b2) (N - 1)%N = b2^* by rewrite /zb /updv eqxx.
  have := hreflectP h2 E2 hz; have -> : (N - 1 + 1 = N)%N by lia.
  move=> Q; have B1 : binv (N - 1)%N (N - 1)%N A A1 (zb (updv u1 (N - 1)%N b2)) (zb v1) d d1.
    by apply: binv_ext B => // i hi; rewrite /zb /updv ltn_eqF.
  have := binv_left h1 B1 Q; have eN : (N - 1).+1%N = N by lia.
  rewrite eN; case=> u v f0 f1 rd re zu zv fr D2.
  set D' := (fun i : nat => _); set E' := (fun i : nat => if (i < N - 1)%N then _ else _).
  have eB c : (c < N)%N -> colv M (cl N (N - 1)%N A2) c = colv M (bidi D' E') c.
    move=> hc; apply/matrixP => i j; rewrite !mxE /cl /bidi hc /=.
    case: (ltngtP c i) => hci /=.
    - by have -> : (i.+1 == c)%N = false by lia.
    - case: (eqVneq i.+1 c) => hc1.
        have hi : (i < N - 1)%N by lia.
        by rewrite -hc1 ltnn andbF /E' hi; apply/esym/(Creal_ReP _ _); apply: re.
      by have -> : ((i < N - 1) && (i.+1 < c))%N by lia.
    - by rewrite -hci [(c.+1 < c)%N]ltnNge leqnSn andbF /D' hc; apply/esym/(Creal_ReP _ _); apply: rd.
  split; last first.
    split=> i hi; [rewrite /D'|rewrite /E']; first by have -> : (i < N)%N = false by lia.
    by have -> : (i < N - 1)%N = false by rewrite /N1 in hi; lia.
  split=> //.
  - by apply: Pr_unit => i hi; apply: u.
  - by apply: Pr_unit => i hi; apply: v.
  - by rewrite -eB.
  - rewrite -f1; congr (_ *m _ *m _); apply/matrixP => i c.
    have hc : (c.+1 < N)%N by have := ltn_ord c; rewrite /N1; lia.
    by have /matrixP/(_ i 0) := eB c.+1 hc; rewrite !mxE /cols1.
  - by move=> i hi; rewrite /D' hi; exact: Creal_Re.
  - by move=> i hi; rewrite /E' -/N1 hi; exact: Creal_Re.
  - by move=> j hj e i hi; apply: zu => //; rewrite /zb e conjC0.
  - by move=> j hj e i hi; apply: zv => //; rewrite /zb e conjC0.
Qed.
End P.

Section Unpack.
Variable C : numClosedFieldType.
Variable under : C -> bool.
Variable nb : nat.
Hypothesis nbP : (0 < nb)%N.
Implicit Types (A U Vt X : fm C) (D E : fv C).

Lemma sum_wid (f : nat -> C) m n : (n <= m)%N -> (forall i, (n <= i < m)%N -> f i = 0) ->
  \sum_(i < m) f i = \sum_(i < n) f i.
Proof.
  move=> h h0; rewrite -!(big_mkord xpredT) (big_cat_nat _ (n := n)) //= [X in _ + X]big_nat_cond.
  by rewrite [X in _ + X]big1 ?addr0 // => i /andP [hi _]; apply: h0.
Qed.

Lemma sum_recl (f : nat -> C) n : (0 < n)%N -> \sum_(i < n) f i = f 0%N + \sum_(i < n - 1) f i.+1.
Proof. by case: n => // n _; rewrite big_ord_recl subn1 /=. Qed.

Lemma getq_elt M N A beta Z0 : (N <= M)%N ->
  (forall k, (k < N)%N -> beta k = 0 -> forall r, (k < r < M)%N -> A r k = 0) ->
  exists Q, GetQFromQR nb M N A beta Z0 = Ok Q /\
    (forall (i : 'I_M) c (hc : (c < M)%N), (c < N)%N -> Q i c = Pr M A (zb beta) 0 N i (Ordinal hc)) /\
    (forall i c, ~~ ((i < M) && (c < N))%N -> (i <= c < N)%N = false -> Q i c = A i c).
Proof using nbP.
  move=> h hz; have [Q [-> [g1 g2]]] := GetQFromQRP nbP Z0 h hz; exists Q; split=> //; split=> // i c hc hcN.
  have /matrixP/(_ i 0) := g1 c hcN; rewrite !mxE => ->.
  rewrite (bigD1 (Ordinal hc)) //= !mxE /= eqxx mulr1 big1 ?addr0 // => j hj.
  rewrite !mxE; case: eqP => [e|_]; last by rewrite mulr0.
  by exfalso; move: hj; rewrite -val_eqE /= e eqxx.
Qed.

Definition bfact M N A U D E Vt : Prop := forall i j, (i < M)%N -> (j < N)%N ->
  A i j = \sum_(k < N) \sum_(l < N) U i k * bidi D E k l * Vt l j.

(** The determinant, for a square matrix. *)
Lemma bfact_det n A (PU : 'M[C]_n.+1) (PV : 'M[C]_n) D E :
  PU *m colv n.+1 (bidi D E) 0 = colv n.+1 A 0 ->
  PU *m mx n.+1 n (cols1 (bidi D E)) *m PV^T = mx n.+1 n (cols1 A) ->
  \det (mx n.+1 n.+1 A) = \det PU * (\prod_(i < n.+1) D i) * \det PV.
Proof using.
  clear under nbP nb; move=> f0 f1; set B := mx n.+1 n.+1 (bidi D E).
  have dB : \det B = \prod_(i < n.+1) D i.
    rewrite -det_tr det_trig; first by apply: eq_bigr => i _; rewrite !mxE /bidi eqxx.
    apply/is_trig_mxP => i j hij; rewrite !mxE /bidi.
    have -> : (j == i :> nat) = false by lia.
    by have -> : (j.+1 == i :> nat) = false by lia.
  pose V : 'M[C]_(1 + n) := block_mx 1%:M 0 0 PV^T.
  have dV : \det V = \det PV by rewrite /V det_lblock det1 mul1r det_tr.
  rewrite -dB -dV -!det_mulmx; congr (\det _); rewrite -mulmxA.
  have -> : mx n.+1 n.+1 A = row_mx (colv n.+1 A 0) (mx n.+1 n (cols1 A)) :> 'M_(n.+1, 1 + n).
    apply/matrixP => i j; rewrite !mxE; case: (split_ordP j) => j' ->; rewrite !mxE //.
    by rewrite ord1.
  have -> : B = row_mx (colv n.+1 (bidi D E) 0) (mx n.+1 n (cols1 (bidi D E))) :> 'M_(n.+1, 1 + n).
    apply/matrixP => i j; rewrite !mxE; case: (split_ordP j) => j' ->; rewrite !mxE //.
    by rewrite ord1.
  rewrite /V (@mul_row_block _ n.+1 1 n 1 n) !mulmx0 addr0 add0r mulmx1 (@mul_mx_row _ n.+1 n.+1 1 n) f0 mulmxA f1 //.
Qed.

Lemma BidiagUnpackP M N A ub vb D E d Vt Z0 Z1 : (0 < N)%N -> (N <= M)%N ->
  exists U' D' E' Vt' d', BidiagUnpack under nb M N A ub vb D E d Vt Z0 Z1 = Ok (U', D', E', Vt', d') /\
  [/\ (forall c c', (c < N)%N -> (c' < N)%N -> \sum_(i < M) (U' i c)^* * U' i c' = (c == c')%:R),
      (forall k k', (k < N)%N -> (k' < N)%N -> \sum_(j < N) Vt' k j * (Vt' k' j)^* = (k == k')%:R),
      bfact M N A U' D' E' Vt',
      (forall i, (i < N)%N -> D' i \is Num.real) /\ (forall i, (i.+1 < N)%N -> E' i \is Num.real) &
      (forall i j, ~~ ((i < M) && (j < N))%N -> U' i j = A i j) /\
      (forall i j, ~~ ((i < N) && (j < N))%N -> Vt' i j = Vt i j) /\
      (M = N -> d' * (\prod_(i < N) D' i) = d * \det (mx N N A))].
Proof.
  move=> hN hM; rewrite /BidiagUnpack; have := NonBlockBidiagonalizeP under hN hM A ub vb D E d.
  case: NonBlockBidiagonalize => [[[[[U u] v] D'] E'] d'] [[pu pv f0 f1 rd re zu zv fr hd] _].
  rewrite /unpackV; set V1 := setV N U Vt; set V2 := tsub _.
  have eV i j : (i < N - 1)%N -> (j < N - 1)%N -> V2 i j = tsub U i j.
    by move=> hi hj; rewrite /V2 /tsub /V1 /setV; have -> : (j.+1 < N)%N && (i.+1 < N)%N by lia.
  have ePV : Pr (N - 1) V2 (zb v) 0 (N - 1) = Pr (N - 1) (tsub U) (zb v) 0 (N - 1).
    by apply: Pr_ext => // i j hj hi; apply: eV; lia.
  have [|Q [-> [q1 q2]]] := @getq_elt (N - 1) (N - 1) V2 v Z0 (leqnn _).
    by move=> k hk e r hr; rewrite eV; [apply: (zv k)|by case/andP: hr|by []].
  rewrite /=; set Vt' := putV Q V1.
  have [U' [-> [u1 u2]]] := @getq_elt M N U u Z1 hM zu.
  exists U', D', E', Vt', d'; split=> //.
  set PU := Pr M U (zb u) 0 N in pu f0 f1 hd u1; set PV := Pr (N - 1) (tsub U) _ _ _ in pv f1 hd ePV.
  rewrite ePV in q1.
  have VS i j (hi : (i < N - 1)%N) (hj : (j < N - 1)%N) : Vt' i.+1 j.+1 = PV (Ordinal hj) (Ordinal hi).
    exact: (q1 (Ordinal hj) i hi hi).
  have V0 j : (j < N)%N -> Vt' 0%N j = (j == 0%N)%:R by move=> hj; rewrite /Vt' /= /V1 /setV hj hN.
  have V0' i : (i.+1 < N)%N -> Vt' i.+1 0%N = 0 by move=> hi; rewrite /Vt' /= /V1 /setV hi hN.
  have bl0 k l : (k >= N)%N -> (l < N)%N -> bidi D' E' k l = 0.
    move=> hk hl; rewrite /bidi; have -> : (k == l) = false by lia.
    by have -> : (k.+1 == l) = false by lia.
  have sumk (i : 'I_M) l : (l < N)%N -> \sum_(k < M) PU i k * bidi D' E' k l = \sum_(k < N) U' i k * bidi D' E' k l.
    move=> hl; rewrite -(@sum_wid (fun k => U' i k * bidi D' E' k l) M N) //; last first.
      by move=> k hk; rewrite bl0 ?mulr0 //; lia.
    apply: eq_bigr => k _; case: (ltnP k N) => hk; last by rewrite bl0 ?mulr0.
    rewrite (u1 i k (ltn_ord k) hk); congr (PU _ _ * _); exact: val_inj.
  split.
  - move=> c c' hc hc'; have hcM := leq_trans hc hM; have hcM' := leq_trans hc' hM.
    have /matrixP/(_ (Ordinal hcM) (Ordinal hcM')) := pu; rewrite !mxE -val_eqE /= => <-.
    by apply: eq_bigr => i _; rewrite !mxE -!u1.
  - move=> k k' hk hk'; rewrite (@sum_recl (fun j => Vt' k j * (Vt' k' j)^*)) //.
    have sh (i : 'I_(N - 1)) : (i.+1 < N)%N by have := ltn_ord i; lia.
    have zr (i : 'I_(N - 1)) : Vt' 0%N i.+1 = 0 by rewrite V0.
    case: k hk => [|k] hk; case: k' hk' => [|k'] hk'.
    + rewrite V0 // eqxx mul1r conjC1 big1 ?addr0 // => i _; by rewrite zr mul0r.
    + rewrite V0' // conjC0 mulr0 add0r big1 // => i _; by rewrite zr mul0r.
    + rewrite V0' // mul0r add0r big1 // => i _; by rewrite zr conjC0 mulr0.
    + rewrite V0' // mul0r add0r.
      have hk1 : (k < N - 1)%N by lia.
      have hk1' : (k' < N - 1)%N by lia.
      have pe : (k.+1 == k'.+1)%:R = \sum_i (PV i (Ordinal hk1'))^* * PV i (Ordinal hk1).
        have /matrixP/(_ (Ordinal hk1') (Ordinal hk1)) := pv; rewrite !mxE -val_eqE /= eqSS eq_sym => <-.
        by apply: eq_bigr => i _; rewrite !mxE.
      rewrite pe.
      apply: eq_bigr => i _; rewrite (VS _ _ hk1 (ltn_ord i)) (VS _ _ hk1' (ltn_ord i)) mulrC.
      by congr (_^* * _); congr (PV _ _); apply: val_inj.
  - move=> i j hi hj; under eq_bigr do under eq_bigr do rewrite -mulrA.
    case: j hj => [|j] hj.
      have /matrixP/(_ (Ordinal hi) 0) := f0; rewrite !mxE => <-.
      have -> : \sum_j PU (Ordinal hi) j * colv M (bidi D' E') 0%N j 0 = \sum_(k < M) PU (Ordinal hi) k * bidi D' E' k 0%N.
        by apply: eq_bigr => k _; rewrite mxE.
      rewrite sumk //; apply: eq_bigr => k _; rewrite -mulr_sumr; congr (_ * _).
      rewrite (@sum_recl (fun l => bidi D' E' k l * Vt' l 0%N)) // V0 // eqxx mulr1 big1 ?addr0 // => l _.
      by rewrite V0' ?mulr0 //; have := ltn_ord l; lia.
    have hj1 : (j < N - 1)%N by lia.
    have ea : A i j.+1 = (mx M (N - 1) (cols1 A)) (Ordinal hi) (Ordinal hj1) by rewrite mxE.
    rewrite {}ea -f1 mxE.
    under [RHS]eq_bigr => k _ do rewrite -mulr_sumr (@sum_recl (fun l => bidi D' E' k l * Vt' l j.+1)) // V0 // mulr0 add0r mulr_sumr.
    rewrite exchange_big; apply: eq_bigr => l _; rewrite !mxE.
    have hl : (l.+1 < N)%N by have := ltn_ord l; lia.
    have -> : \sum_j PU (Ordinal hi) j * mx M (N - 1) (cols1 (bidi D' E')) j l = \sum_(k < M) PU (Ordinal hi) k * bidi D' E' k l.+1.
      by apply: eq_bigr => k _; rewrite mxE.
    rewrite sumk // mulr_suml; apply: eq_bigr => k _.
    rewrite (VS _ _ (ltn_ord l) hj1) mulrA; congr (_ * PV _ _); exact: val_inj.
  - by split=> // i hi; apply: re; lia.
  - split; [|split].
    + move=> i j h; rewrite u2 //; first exact: fr.
      by apply/negP => h1; move: h; lia.
    + move=> [|i] [|j] h; rewrite /Vt' /= /V1; try by rewrite /setV (negbTE h).
      rewrite q2; [by rewrite /V2 /tsub /V1 /setV (negbTE h)|lia|].
      by apply/negP => h1; move: h; lia.
    + move=> eM; clearbody PU PV; clear - hN hd f0 f1 eM; subst M.
      move: hN PU PV f0 f1 hd; case: N => // n _; rewrite subn1 /= => PU PV f0 f1 ->.
      by rewrite (bfact_det f0 f1) -!mulrA; congr (_ * (_ * _)); rewrite mulrC.
Qed.
End Unpack.
