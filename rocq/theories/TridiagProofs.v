(** Proofs about Tridiag.v: A = Q T Q^dagger. *)
From Coq Require Import Ring Field.
From Verif Require Import Base FMat LUDiv RingTac Cplx Givens QR QRDiv QRProofs QRDivProofs Claims_QR BidiagProofs Tridiag BidiagQRProofs TridiagQR TridiagQRProofs.
From mathcomp Require Import all_ssreflect all_algebra zify.
Set Implicit Arguments. Unset Strict Implicit. Unset Printing Implicit Defensive.
Import GRing.Theory Num.Theory Order.Theory.
Local Open Scope ring_scope.

Section Proofs.
Variable C : numClosedFieldType.
Add Field Cf : (mc_ft C).
Ltac mring := mcnorm C; ring.
Variable under : C -> bool.
Variable N : nat.
Implicit Types (A U : fm C) (D E beta v : fv C).

Definition rdiag A : Prop := forall i, (i < N)%N -> A i i \is Num.real.
Lemma hel_herm A : rdiag A -> ctr (mx N N (hel A)) = mx N N (hel A).
Proof.
  move=> r; apply/matrixP => i j; rewrite !mxE /hel.
  case: (ltngtP i j) => h; rewrite ?conjCK //.
  have e : i = j by exact: val_inj.
  by rewrite e; apply: CrealP; apply: r.
Qed.
(** Two hermitian matrices with the same lower triangle. *)
Lemma herm_eq (X Y : 'M[C]_N) : ctr X = X -> ctr Y = Y -> (forall i j : 'I_N, (j <= i)%N -> X i j = Y i j) -> X = Y.
Proof.
  move=> hx hy h; apply/matrixP => i j; case: (leqP j i) => hij; first exact: h.
  by rewrite -hx -hy !mxE h // ltnW.
Qed.

(** The array after j steps, without the vectors of the reflections. *)
Definition low (j : nat) A : fm C := fun i c => if ((c < j) && (c.+1 < i))%N then 0 else A i c.
Definition zs beta (k : nat) : C := (beta k.-1)^*.

(** G T G^dagger with G = I - b y y^dagger. *)
Lemma GTG (T : 'M[C]_N) b (y : 'cV[C]_N) : ctr T = T ->
  let w := T *m y in let q := (ctr y *m w) 0 0 in
  [/\ q^* = q & forall i c, (Hm b y *m T *m ctr (Hm b y)) i c =
    T i c - b * y i 0 * (w c 0)^* - b^* * w i 0 * (y c 0)^* + b * b^* * q * (y i 0 * (y c 0)^*)].
Proof.
  move=> hT w q.
  have eyT : ctr y *m T = ctr w by rewrite /w ctrM hT.
  have eq : ctr y *m w = q%:M by rewrite [LHS]mx11_scalar.
  split.
    have h : ctr (ctr y *m w) = ctr y *m w by rewrite ctrM ctrK -eyT /w mulmxA.
    have /matrixP/(_ 0 0) := h; by rewrite mxE => ->.
  rewrite ctrHm /Hm => i c.
  have -> : (1%:M - b *: (y *m ctr y)) *m T *m (1%:M - b^* *: (y *m ctr y)) =
    T - b *: (y *m ctr w) - b^* *: (w *m ctr y) + (b * b^* * q) *: (y *m ctr y).
    have e1 : y *m ctr y *m T = y *m ctr w by rewrite -mulmxA eyT.
    have e2 : T *m (y *m ctr y) = w *m ctr y by rewrite mulmxA.
    have e3 : y *m ctr y *m T *m (y *m ctr y) = q *: (y *m ctr y).
      by rewrite e1 -mulmxA (mulmxA (ctr w)) -eyT -(mulmxA _ T) -/w eq mul_scalar_mx -scalemxAr.
    rewrite mulmxBl mul1mx -scalemxAl mulmxBr mulmx1 -scalemxAr mulmxBl -scalemxAl e3 e1 e2.
    move: (y *m ctr w) (w *m ctr y) (y *m ctr y) (q) => X Y Z r; apply/matrixP => i' j'; rewrite !mxE.
    by move: (b^*) (T i' j') (X i' j') (Y i' j') (Z i' j') => bb t x1 y1 z1; mring.
  move: (q) (w) => r W; rewrite !mxE !big_ord1 ![ctr _ _ _]mxE.
  by move: (W i 0) ((W c 0)^*) (y i 0) ((y c 0)^*) (b^*) (T i c) => w1 w2 y1 y2 bb t; mring.
Qed.

Lemma hlrmult0 k v A : hlrmult N k v 0 A = A. Proof. by rewrite /hlrmult eqxx. Qed.
Lemma hlrmult_fr k v b A i c : ~~ ((k <= c) && (c <= i < N))%N -> hlrmult N k v b A i c = A i c.
Proof. by move=> h; rewrite /hlrmult; case: ifP => // _; rewrite (negbTE h). Qed.

Lemma stepT j A b A' det det' : (j.+1 < N)%N -> rdiag A -> hreflect under N j.+1 (shc A) det = (A', b, det') ->
  let A1 := unshc A' in
  let A2 := if b != 0 then hlrmult N j.+1 (fun i => A1 i j) b A1 else A1 in
  let y := yv N (shc A2) j.+1 in
  [/\ unit_mx (Hm b^* y), Hm b^* y *m mx N N (hel (low j.+1 A2)) *m ctr (Hm b^* y) = mx N N (hel (low j A)),
      rdiag A2, A2 j.+1 j \is Num.real /\ (b = 0 -> forall r, (j.+1 < r < N)%N -> A2 r j = 0) &
      forall i c, (c < j)%N -> A2 i c = A i c].
Proof.
  move=> hj rA E A1 A2 y.
  have [q1 q2 _ q4 q5 q6 _] := @hreflectP _ N under j.+1 (shc A) det A' b det' (fun _ => b^*) hj E erefl.
  have a1 i c : ~~ ((j < i < N)%N && (c == j)) -> A1 i c = A i c.
    by move=> h; rewrite /A1 /unshc q4 //; lia.
  have a2 i c : ~~ ((j < c) && (c <= i < N))%N -> A2 i c = A1 i c.
    by move=> h; rewrite /A2; case: ifP => // _; rewrite hlrmult_fr.
  have a2j i : A2 i j = A1 i j by apply: a2; lia.
  have ey : y = yv N A' j.+1 by apply: yv_ext => i hi; rewrite /= a2j.
  clearbody y.
  have yE i : y i 0 = yelt A' i j.+1 by rewrite ey mxE.
  have y0 (i : 'I_N) : (i <= j)%N -> y i 0 = 0.
    move=> hi; rewrite yE /yelt; have -> : (i == j.+1 :> nat) = false by lia.
    by have -> : (j.+1 < i)%N = false by lia.
  have u : unit_mx (Hm b^* y) by rewrite ey; apply: (q1 j.+1); lia.
  have rl : A2 j.+1 j \is Num.real by rewrite a2j /A1 /unshc; apply: q5; lia.
  have bz : b = 0 -> forall r, (j.+1 < r < N)%N -> A2 r j = 0.
    move=> b0 r hr; rewrite a2j /A1 /unshc; apply: (q6 j.+1 r); [lia|by rewrite b0 conjC0|lia].
  (* the matrix before the step *)
  set T := mx N N (hel (low j A)).
  have lr k X : rdiag X -> rdiag (low k X).
    move=> r i hi; rewrite /low; have -> : (i.+1 < i)%N = false by lia.
    by rewrite andbF; apply: r.
  have rlo := lr j A rA.
  have hT : ctr T = T by apply: hel_herm.
  have [qr gt] := @GTG T b y hT; set w := T *m y in qr gt; set q := (ctr y *m w) 0 0 in qr gt.
  have cH : ctr (Hm b^* y) = Hm b y by rewrite ctrHm conjCK.
  (* the column j *)
  have colj i : (j < i)%N -> forall hi : (i < N)%N, A i j - b * y (Ordinal hi) 0 * (\sum_(l < N) (y l 0)^* * (if (j < l)%N then A l j else 0)) =
      (if (i <= j.+1)%N then A1 i j else 0).
    move=> hji hi; have h := q2 j.+1 ltac:(lia); rewrite /= mulmx1 -ey in h.
    have := congr1 (fun X => ctr (Hm b^* y) *m X) h; rewrite /= mulmxA u mul1mx cH => /matrixP/(_ (Ordinal hi) 0).
    rewrite mxE /= => ->; rewrite /Hm mulmxBl mul1mx -scalemxAl -mulmxA.
    rewrite [in RHS]mxE [X in _ = _ + X]mxE [X in _ = _ - X]mxE [X in _ = _ - b * X]mxE big_ord1 [colv _ _ _ _ _]mxE /= -!mulrA.
    congr (_ - _ * (_ * _)).
    rewrite [RHS]mxE; apply: eq_bigr => l _; rewrite [ctr _ _ _]mxE [colv _ _ _ _ _]mxE /=; case: (ltnP j l) => hl //.
    by rewrite y0 // conjC0 !mul0r.
  (* w on the rows from j+1 on *)
  have wE (i : 'I_N) : (j < i)%N -> w i 0 = \sum_(j.+1 <= l < N) hel A1 i l * (if l == j.+1 then 1 else A1 l j).
    move=> hji; rewrite mxE.
    rewrite (eq_bigr (fun l : 'I_N => hel (low j A) i l * yelt A' l j.+1)); last by move=> l _; rewrite mxE -yE.
    rewrite (@sum_ord_nat _ N (fun l => hel (low j A) i l * yelt A' l j.+1) j.+1); first last.
    - move=> l hl; rewrite /yelt; have -> : (l == j.+1) = false by lia.
      have -> : (j.+1 < l)%N = false by lia.
      by rewrite mulr0.
    - lia.
    rewrite !big_nat; apply: eq_bigr => l hl; congr (_ * _).
      rewrite /hel /low; have -> : (l < j)%N = false by lia.
      have -> : (i < j)%N = false by lia.
      by rewrite /= !a1 //; lia.
    rewrite /yelt; case: eqP => // hl'.
    by have -> : (j.+1 < l)%N by lia.
  have qE : q = \sum_(j.+1 <= l < N) (if l == j.+1 then 1 else A1 l j)^* *
      \sum_(j.+1 <= m < N) hel A1 l m * (if m == j.+1 then 1 else A1 m j).
    rewrite /q mxE.
    pose g := fun l : nat => (yelt A' l j.+1)^* * \sum_(j.+1 <= m < N) hel A1 l m * (if m == j.+1 then 1 else A1 m j).
    rewrite (eq_bigr (fun l : 'I_N => g l)).
      rewrite (@sum_ord_nat _ N g j.+1); first last.
      - move=> l hl; rewrite /g /yelt; have -> : (l == j.+1) = false by lia.
        have -> : (j.+1 < l)%N = false by lia.
        by rewrite conjC0 mul0r.
      - lia.
      rewrite !big_nat; apply: eq_bigr => l hl; rewrite /g; congr (_^* * _).
      rewrite /yelt; case: eqP => // hl'.
      by have -> : (j.+1 < l)%N by lia.
    move=> l _; rewrite mxE yE /g; case: (leqP l j) => hl; last by rewrite wE.
    by have := y0 l hl; rewrite yE => ->; rewrite conjC0 !mul0r.
  have A2E (i c : 'I_N) : (j < c)%N -> (c <= i)%N -> A2 i c =
      A i c - b * y i 0 * (w c 0)^* - b^* * w i 0 * (y c 0)^* + b * b^* * q * (y i 0 * (y c 0)^*).
    move=> hc hci; rewrite /A2; case: (eqVneq b 0) => [->|nb] /=.
      by rewrite conjC0 !mul0r !subr0 addr0 a1 //; lia.
    rewrite /hlrmult nb; have -> : ((j.+1 <= c) && (c <= i < N))%N by have := ltn_ord i; lia.
    rewrite -!wE; [|lia|lia].
    have vE (l : 'I_N) : (j < l)%N -> (if (l == j.+1 :> nat) then 1 else A1 l j) = y l 0.
      move=> hl; rewrite yE /yelt; case: eqP => // hl'.
      by have -> : (j.+1 < l)%N by lia.
    rewrite !vE; [|lia|lia].
    rewrite -qE a1; last lia.
    rewrite tNORM_conj.
    have -> : 'Re (b * b^* * q) = b * b^* * q.
      by apply: Creal_ReP; apply/CrealP; rewrite !rmorphM /= conjCK qr; mring.
    have -> : (if i == c :> nat then 'Re (A i c + (- b * y i 0 * (w c 0)^* + w i 0 * (- b * y c 0)^*))
               else A i c + (- b * y i 0 * (w c 0)^* + w i 0 * (- b * y c 0)^*)) =
              A i c + (- b * y i 0 * (w c 0)^* + w i 0 * (- b * y c 0)^*).
      case: eqP => // e; apply: Creal_ReP.
      have {}e : i = c by exact: val_inj.
      rewrite e; apply: rpredD; first exact: rA.
      apply/CrealP; rewrite rmorphD !rmorphM /= !conjCK.
      by mring.
    rewrite cjM cjN; move: (w i 0) ((w c 0)^*) (y i 0) ((y c 0)^*) (b^*) (q) (A i c) => w1 w2 y1 y2 bb r t; mring.
  have rA2 : rdiag A2.
    move=> i hi; case: (leqP i j) => hij; first by rewrite a2 ?a1; [exact: rA|lia|lia].
    have /= := @A2E (Ordinal hi) (Ordinal hi) hij (leqnn _) => ->.
    have -> : A i i = T (Ordinal hi) (Ordinal hi).
      rewrite mxE /hel leqnn /low; have -> : (i.+1 < i)%N = false by lia.
      by rewrite andbF.
    rewrite -gt; have /matrixP/(_ (Ordinal hi) (Ordinal hi)) : ctr (Hm b y *m T *m ctr (Hm b y)) = Hm b y *m T *m ctr (Hm b y).
      by rewrite !ctrM ctrK hT mulmxA.
    by rewrite mxE => h; apply/CrealP.
  split=> //; last by move=> i c hc; rewrite a2 ?a1 //; lia.
  have key : Hm b y *m T *m ctr (Hm b y) = mx N N (hel (low j.+1 A2)).
    apply: herm_eq.
    - by rewrite !ctrM ctrK hT mulmxA.
    - by apply: hel_herm; apply: lr.
    move=> i c hci; rewrite gt [RHS]mxE /hel hci.
    case: (ltngtP c j) => hcj.
    - have wc : w c 0 = 0.
        rewrite mxE big1 // => l _; rewrite mxE /hel; case: (leqP l j) => hl; first by rewrite y0 ?mulr0.
        have -> : (l <= c)%N = false by lia.
        rewrite /low hcj; have -> : (c.+1 < l)%N by lia.
        by rewrite conjC0 mul0r.
      rewrite wc [y c 0]y0; last lia.
      rewrite conjC0 !mulr0 !subr0 addr0 mxE /hel hci /low hcj.
      have -> : (c < j.+1)%N by lia.
      by case: ifP => // _; rewrite a2 ?a1 //; lia.
    - rewrite mxE /hel hci /low.
      have -> : (c < j)%N = false by lia.
      have -> : (c < j.+1)%N = false by lia.
      by rewrite /= A2E.
    - rewrite [y c 0]y0; last lia.
      rewrite conjC0 !mulr0 subr0 addr0 mxE /hel hci /low hcj ltnn ltnSn /=.
      case: (leqP i j) => hij.
        have -> : (j.+1 < i)%N = false by lia.
        by rewrite [y i 0]y0 // mulr0 mul0r subr0 a2 ?a1 //; lia.
      have wj : (w c 0)^* = \sum_(l < N) (y l 0)^* * (if (j < l)%N then A l j else 0).
        rewrite mxE rmorph_sum; apply: eq_bigr => l _; rewrite rmorphM mulrC mxE /hel /=.
        case: (ltnP j l) => hl; last by rewrite y0 // conjC0 !mul0r.
        have -> : (l <= c)%N = false by lia.
        by rewrite conjCK /low hcj ltnn.
      rewrite wj; have := colj i hij (ltn_ord i).
      have -> : Ordinal (ltn_ord i) = i by exact: val_inj.
      by move=> ->; rewrite a2j; case: (leqP i j.+1).
  rewrite -key cH; have u' := u; rewrite /unit_mx cH in u'.
  have u2 : Hm b^* y *m Hm b y = 1%:M by rewrite -cH; exact: unit_mxC.
  have -> : ctr (Hm b y) = Hm b^* y by rewrite ctrHm.
  by rewrite !mulmxA u2 mul1mx -mulmxA u2 mulmx1.
Qed.

(** What the first j steps keep. *)
Definition tinv (H : 'M[C]_N) (j : nat) A beta : Prop :=
  [/\ forall k, (1 <= k <= j)%N -> unit_mx (Hm (zs beta k) (yv N (shc A) k)),
      Pr N (shc A) (zs beta) 1 j *m mx N N (hel (low j A)) *m ctr (Pr N (shc A) (zs beta) 1 j) = H,
      rdiag A, forall c, (c < j)%N -> A c.+1 c \is Num.real &
      forall c, (c < j)%N -> beta c = 0 -> forall r, (c.+1 < r < N)%N -> A r c = 0].

Lemma tloopP H j A beta det : (j < N)%N -> tinv H 0 A beta ->
  let s := foldl (fun s j => tstep under N j s) (A, beta, det) (iota 0 j) in tinv H j s.1.1 s.1.2.
Proof.
  move=> + h0; elim: j => [|j IH] hj; first exact: h0.
  rewrite -[j.+1]addn1 iotaD foldl_cat /= add0n; move: {IH}(IH ltac:(lia)).
  case: (foldl _ _ _) => [[B be] d] /= [i1 i2 i3 i4 i5].
  case E: (hreflect under N j.+1 (shc B) d) => [[B' b] d'] /=.
  have [u f rd [rl bz] fr] := stepT hj i3 E.
  set A2 := (if b != 0 then _ else _) in u f rd rl bz fr *.
  set be' := updv be j b.
  have zj : zs be' j.+1 = b^* by rewrite /zs /= /be' /updv eqxx.
  have zk k : (1 <= k <= j)%N -> zs be' k = zs be k.
    by move=> hk; rewrite /zs /be' /updv; have -> : (k.-1 == j) = false by lia.
  have ek k i : (1 <= k <= j)%N -> shc A2 i k = shc B i k.
    by case: k => // k hk; rewrite /= fr //; lia.
  have eP : Pr N (shc A2) (zs be') 1 (j + 1) = Pr N (shc B) (zs be) 1 j *m Hm b^* (yv N (shc A2) j.+1).
    rewrite Pr_cat /= mulmx1 add1n zj; congr (_ *m _).
    by apply: Pr_ext => [i k hk hi|k hk]; [apply: ek|apply: zk]; lia.
  split.
  - move=> k hk; case: (eqVneq k j.+1) => [->|hk']; first by rewrite zj.
    rewrite zk; last lia.
    rewrite (@yv_ext _ _ _ (shc B)); first by apply: i1; lia.
    by move=> i hi; apply: ek; lia.
  - rewrite eP addn1 ctrM -i2 -f; move: (Pr _ _ _ _ _) (Hm _ _) (mx _ _ _) => X Y Z; by rewrite !mulmxA.
  - exact: rd.
  - by move=> c hc; case: (eqVneq c j) => [->//|hc']; rewrite fr; [apply: i4|]; lia.
  - move=> c hc; case: (eqVneq c j) => [->|hc'].
      by rewrite /be' /updv eqxx => hb r hr; apply: bz.
    rewrite /be' /updv; have -> : (c == j) = false by lia.
    by move=> e r hr; rewrite fr; [apply: (i5 c) => //|]; lia.
Qed.

Lemma tinv0 A beta : rdiag A -> tinv (mx N N (hel A)) 0 A beta.
Proof.
  move=> r; split=> //=; first by move=> k hk; exfalso; lia.
  by rewrite mul1mx ctr1 mulmx1; apply/matrixP => i j; rewrite !mxE.
Qed.

(** After the last step the matrix is tridiagonal. *)
Lemma low_tri A : rdiag A -> (forall c, (c < N - 1)%N -> A c.+1 c \is Num.real) ->
  let D := fun i => 'Re (A i i) in let E := fun i => 'Re (hel A i i.+1) in
  mx N N (hel (low (N - 1) A)) = mx N N (tri D E).
Proof.
  move=> rd rl D E; have rlo : rdiag (low (N - 1) A).
    move=> i hi; rewrite /low; have -> : (i.+1 < i)%N = false by lia.
    by rewrite andbF; apply: rd.
  have Er i : E i \is Num.real by exact: Creal_Re.
  have Dr i : D i \is Num.real by exact: Creal_Re.
  apply: herm_eq; first exact: hel_herm.
    apply/matrixP => i j; rewrite !mxE /tri eq_sym.
    case: eqP => [->|_]; first exact: CrealP.
    case: (eqVneq j.+1 (i : nat)) => [e|_].
      have -> : (i.+1 == j :> nat) = false by lia.
      exact: CrealP.
    by case: eqP => _; [exact: CrealP|rewrite conjC0].
  move=> i j hij; rewrite !mxE /hel hij /low /tri.
  have hi := ltn_ord i.
  case: eqP => [e|ne].
    have {}e : i = j by exact: val_inj.
    rewrite e; have -> : (j.+1 < j)%N = false by lia.
    by rewrite andbF /D; apply/esym/Creal_ReP; apply: rd.
  have -> : (i.+1 == j :> nat) = false by lia.
  have -> : (j < N - 1)%N by lia.
  case: eqP => [e|ne2]; last by have -> : (j.+1 < i)%N by lia.
  rewrite -e ltnn /= /E /hel; have -> : (j.+1 <= j)%N = false by lia.
  have r := rl j ltac:(lia).
  by rewrite (CrealP r); apply/esym/Creal_ReP.
Qed.
End Proofs.

(** Reflections of the rows from 1 on, and the same ones of one row less. *)
Section Shift.
Variable C : numClosedFieldType.
Implicit Types (A U : fm C) (D E beta : fv C).
Lemma Hm_block n (b : C) (y : 'cV[C]_n) : Hm b (col_mx (0 : 'cV[C]_1) y) = block_mx 1%:M 0 0 (Hm b y).
Proof.
  rewrite /Hm; have -> : ctr (col_mx (0 : 'cV[C]_1) y) = row_mx 0 (ctr y).
    apply/matrixP => i j; rewrite !mxE; case: splitP => k e; rewrite !mxE //; exact: conjC0.
  rewrite mul_col_row !mul0mx mulmx0 scale_block_mx !scaler0 [1%:M]scalar_mx_block opp_block_mx add_block_mx.
  by rewrite !oppr0 !addr0.
Qed.
Lemma yv_shift n A k : yv (1 + n) A k.+1 = col_mx (0 : 'cV[C]_1) (yv n (fun i j => A i.+1 j.+1) k).
Proof.
  apply/matrixP => i j; rewrite !mxE; case: splitP => l e; rewrite !mxE e /yelt.
    by rewrite ord1.
  by rewrite add1n eqSS ltnS.
Qed.
Lemma Pr_shift n A z o m : Pr (1 + n) A z o.+1 m =
  block_mx 1%:M 0 0 (Pr n (fun i j => A i.+1 j.+1) (fun k => z k.+1) o m).
Proof.
  elim: m o => [|m IH] o /=; first by rewrite [1%:M]scalar_mx_block.
  by rewrite IH yv_shift Hm_block mulmx_block !mul1mx !mul0mx !mulmx0 !addr0 !add0r.
Qed.

Variable under : C -> bool.
Variables (tb nb : nat) (blk : nat -> fm C -> fv C -> fv C -> fv C -> fm C * fv C * fv C * fv C).
Hypothesis nbP : (0 < nb)%N.
Lemma TridiagUnpackP N U beta D E Z0 : (0 < N)%N -> (N < tb * 2)%N -> rdiag N U ->
  exists U' D' E', TridiagUnpack under tb blk nb N U beta D E Z0 = Ok (U', D', E') /\
    InvT N (mx N N (hel U)) (TS U' D' E').
Proof using nbP.
  case: N => // n _ hN rd; rewrite /TridiagUnpack /Tridiagonalize ltn0Sn /NonBlockTridiagonalize.
  have -> : (tb * 2 <= n.+1)%N = false by lia.
  have := @tloopP C under n.+1 (mx n.+1 n.+1 (hel U)) (n.+1 - 1) U beta 0 ltac:(lia) (tinv0 beta rd).
  case: (foldl _ _ _) => [[A be] d] /= [i1 i2 i3 i4 i5].
  rewrite subn1 /= in i1 i2 i4 i5 *.
  set W := shiftU n.+1 A; set A'' := fun i j : nat => W i.+1 j.+1.
  have eW i k : (k <= i < n)%N -> A'' i k = A i.+1 k.
    move=> h; rewrite /A'' /W /shiftU /=; have -> : (i.+1 < n.+1)%N && (k.+1 < n.+1)%N by lia.
    by have -> : (k < i.+1)%N by lia.
  have [|Q [-> [q1 q2]]] := @getq_elt C nb nbP n n A'' be Z0 (leqnn _).
    by move=> k hk e r hr; rewrite eW; [apply: (i5 k) => //|]; lia.
  eexists; eexists; eexists; split; first by [].
  set U' := putU Q W; set P := Pr n.+1 (shc A) (zs be) 1 n in i2.
  have eP : mx n.+1 n.+1 U' = P.
    rewrite /P (@Pr_shift n) -(@Pr_ext _ n A'' _ (zb be)); first last.
    - by [].
    - by move=> i k hk hi; rewrite eW //; lia.
    set X := Pr n A'' _ _ _ in q1 *; clearbody X.
    apply/matrixP => i j; rewrite [LHS]mxE !mxE; case: splitP => i' ei; rewrite ?mxE; case: splitP => j' ej; rewrite ?mxE.
    - by rewrite ei ej !ord1 /U' /= /W /shiftU /=.
    - by rewrite ei ej !ord1 /U' /= /W /shiftU add1n /= ltnS ltn_ord.
    - by rewrite ei ej !ord1 /U' /= /W /shiftU add1n /= ltnS ltn_ord.
    - rewrite ei ej /U' !add1n /= (q1 i' j' (ltn_ord j')) //.
      by congr (X _ _); exact: val_inj.
  have uP : unit_mx P by apply: Pr_unit => k hk; apply: i1; lia.
  have aP : mx n.+1 n.+1 (adjf U') = ctr P by rewrite -eP; apply/matrixP => i j; rewrite !mxE.
  split; last first.
    split=> i hi /=; first by rewrite hi; exact: Creal_Re.
    by rewrite -ltnS hi; exact: Creal_Re.
  rewrite /invT /inv eP aP ctrK; split; [exact: uP|exact: uP|].
  rewrite -i2; congr (_ *m _ *m _).
  have := @low_tri C n.+1 A i3; rewrite subn1 => /(_ i4) /= ->.
  apply/matrixP => i j; rewrite !mxE /tri /=; have hi := ltn_ord i; have hj := ltn_ord j.
  rewrite hi; case: eqP => // _; case: eqP => [e|_].
    by have -> : (i < n)%N by lia.
  by case: eqP => // e; have -> : (j < n)%N by lia.

Qed.
End Shift.
