(** Cholesky decomposition: src/TMV_SymCHDecompose.cpp (without LAPACK).
    Exact arithmetic in a numClosedFieldType C; the real types are its real elements. *)
From Coq Require Import Ring Field.
From Verif Require Import Base FMat TriSolve RingTac Cplx.
From mathcomp Require Import all_ssreflect all_fingroup all_algebra zify.
Set Implicit Arguments. Unset Strict Implicit. Unset Printing Implicit Defensive.
Import GRing.Theory Num.Theory Order.Theory.
Local Open Scope ring_scope.

Section Model.
Variable C : numClosedFieldType.
(** TRI_DIV_BLOCKSIZE(2) and CH_BLOCKSIZE, CH_BLOCKSIZE2 (50-56: 64 and 2 by default,
    TMV_BLOCKSIZE and TMV_BLOCKSIZE/2 if that is defined). *)
Variables tb tb2 nb nb2 : nat.
Implicit Types A : fm C.

(** conjugate() of a view. *)
Definition cjm A : fm C := fun i j => (A i j)^*.
(** Assignment to the real part (A.realPart().diag() is what the code writes to). *)
Definition setre (x r : C) : C := r + 'i * 'Im x.
(** if (d <= 0) throw NonPosDef; else sqrt(d). *)
Definition chk (d : C) : outcome C := if d <= 0 then Throw NonPosDef else Ok (sqrtC d).

(** NonBlockCH_Decompose<cm = true>, one turn of the loop, 140-158. *)
Definition chcol (N j : nat) A : outcome (fm C) :=
  do d <- chk ('Re (A j j));
  let A1 := updm A j j (setre (A j j) d) in
  let A2 : fm C := fun r c => if (c == j) && (j < r < N)%N then A1 r c / d else A1 r c in
  Ok (fun r c => if (j < c)%N && (c <= r < N)%N then A2 r c - A2 r j * (A2 c j)^* else A2 r c).
(** The last element, 159-171. *)
Definition chlast (j : nat) A : outcome (fm C) :=
  do d <- chk ('Re (A j j)); Ok (updm A j j (setre (A j j) d)).
Definition NonBlockCH_col (N : nat) A : outcome (fm C) :=
  do A <- loop (up N.-1) (chcol N) A; chlast N.-1 A.

(** cm = false, 173-207.  row(i,0,i) %= L^dagger is the solution of conj(L) x = row. *)
Definition setrow0 (i : nat) (x : fv C) A : fm C :=
  fun r c => if (r == i) && (c < i)%N then x c else A r c.
Definition chrow (st : stor) (i : nat) A : outcome (fm C) :=
  do x <- TriLDivEqL st false i (cjm A) (fun k => A i k);
  let A1 := setrow0 i x A in
  let d := 'Re (A1 i i) - \sum_(0 <= k < i) tNORM (A1 i k) in
  do e <- chk d;
  Ok (updm A1 i i (setre (A1 i i) e)).
Definition NonBlockCH_row (st : stor) (N : nat) A : outcome (fm C) :=
  do A <- chlast 0 A; loop (iota 1 N.-1) (chrow st) A.

(** A10 %= L00t; A11 -= A10 * A10.adjoint(), 333-335.  Only the lower triangle of A11
    is stored; the product is the mathematical one (RankKUpdate). *)
Definition chsolve (stA stB : stor) (k N : nat) A : outcome (fm C) :=
  do X <- TriLDivEqML tb tb2 stA stB false k (N - k) (cjm A) (trm (subm k 0 A));
  Ok (putm k 0 (N - k) k A (trm X)).
Definition chrank (k N : nat) A : fm C := fun r c =>
  if (k <= c)%N && (c <= r < N)%N then A r c - \sum_(0 <= t < k) A r t * (A c t)^* else A r c.

(** RecursiveCH_Decompose, 302-396.  [fuel] bounds the recursion (UB when it runs out:
    excluded by the theorems). *)
Fixpoint RecCH (fuel : nat) (iscm : bool) (stA stB : stor) (N : nat) A : outcome (fm C) :=
  match fuel with
  | 0 => UB
  | f.+1 =>
    if (nb2 < N)%N then
      let k := halve nb N in
      do A <- RecCH f iscm stA stB k A;
      do A <- chsolve stA stB k N A;
      let A := chrank k N A in
      do V <- RecCH f iscm stA stB (N - k) (subm k k A);
      Ok (putm k k (N - k) (N - k) A V)
    else if (2 < nb2)%N && (2 < N)%N then
      (if iscm then NonBlockCH_col N A else NonBlockCH_row stA N A)
    else if (0 < N)%N then
      do d <- chk ('Re (A 0%N 0%N));
      let A := updm A 0 0 d in
      if N == 2%N then
        let A10 := A 1%N 0%N / 'Re (A 0%N 0%N) in
        let A := updm A 1 0 A10 in
        do e <- chk ('Re (A 1%N 1%N) - tNORM A10);
        Ok (updm A 1 1 e)
      else Ok A
    else Ok A
  end.

(** CH_Decompose, 523-538, on a view: the stored triangle [raw] (element (i,j) of the
    view's own triangle), whether that is the upper one and whether the view is
    conjugated.  adjoint() exchanges the triangles and toggles the conjugation. *)
Definition CH_Decompose (iscm : bool) (stA stB : stor) (upper cj : bool) (N : nat) (raw : fm C) : outcome (fm C) :=
  let core A := if (0 < N)%N then RecCH N.+1 iscm stA stB N A else Ok A in
  if upper then
    (* A.adjoint(), then possibly conjugate(): both only change the view *)
    do R <- core (trm raw); Ok (trm R)
  else core raw.
End Model.

(** * Specification *)
Section Spec.
Variable C : numClosedFieldType.
Implicit Types A : fm C.

(** The hermitian matrix whose lower triangle is A. *)
Definition hermlow A : fm C := fun i j => if (j <= i)%N then A i j else (A j i)^*.
(** The lower triangle itself. *)
Definition low A : fm C := fun i j => if (j <= i)%N then A i j else 0.
(** x H x^dagger. *)
Definition qform (N : nat) (H : fm C) (x : fv C) : C :=
  \sum_(0 <= i < N) \sum_(0 <= j < N) x i * H i j * (x j)^*.
Definition posdef (N : nat) (H : fm C) : Prop :=
  forall x, (exists i, (i < N)%N /\ x i != 0) -> 0 < qform N H x.
(** isHermOK: the diagonal is real. *)
Definition hermok (N : nat) A : Prop := forall i, (i < N)%N -> A i i \is Num.real.
End Spec.

(** * Proofs *)
Section Proofs.
Variable C : numClosedFieldType.
Variables tb tb2 nb nb2 : nat.
Add Field Cf : (mc_ft C).
Ltac mfield := mcnorm C; field.
Ltac mring := mcnorm C; ring.
Implicit Types A : fm C.

Definition notPD (N : nat) A : Prop :=
  exists x : fv C, (exists i, (i < N)%N /\ x i != 0) /\ qform N (hermlow A) x <= 0.

Record chinv (N k : nat) A0 A : Prop := ChInv {
  ci_eq : forall i j, (j <= i)%N -> (i < N)%N ->
    A0 i j = \sum_(0 <= t < minn k j.+1) A i t * (A j t)^* + (if (k <= j)%N then A i j else 0);
  ci_pos : forall t, (t < k)%N -> 0 < A t t;
  ci_real : forall t, (k <= t < N)%N -> A t t \is Num.real;
  ci_out : forall i j, ~~ ((j <= i)%N && (i < N)%N) -> A i j = A0 i j }.

Lemma chinv0 N A : hermok N A -> chinv N 0 A A.
Proof.
  move=> H; split=> //.
  - by move=> i j _ _; rewrite min0n big_geq // add0r.
Qed.

Lemma posre (x : C) : 0 < x -> 'Re x = x.
Proof. by move=> h; apply/Creal_ReP; exact: gtr0_real. Qed.
Lemma realre (x : C) : x \is Num.real -> 'Re x = x.
Proof. by move=> h; apply/Creal_ReP. Qed.
Lemma realim (x : C) : x \is Num.real -> 'Im x = 0.
Proof. by move=> h; apply/Creal_ImP. Qed.
Lemma setre_real (x r : C) : x \is Num.real -> setre x r = r.
Proof. by move=> h; rewrite /setre realim // mulr0 addr0. Qed.
Lemma realcj (x : C) : x \is Num.real -> x^* = x. Proof. exact: CrealP. Qed.

Lemma chkP (d : C) : d \is Num.real ->
  match chk d with Ok e => 0 < d /\ 0 < e /\ e * e = d | Throw x => x = NonPosDef /\ d <= 0 | UB => False end.
Proof.
  move=> h; rewrite /chk; case: ifP => h1; first by [].
  have hd : 0 < d by rewrite real_ltNge ?real0 // h1.
  by rewrite sqrtC_gt0 -expr2 sqrtCK.
Qed.

(** One column. *)
Lemma chinv_col N j A0 A d B : chinv N j A0 A -> (j < N)%N -> 0 < d -> d * d = A j j ->
  (forall r c, B r c =
     if (c == j) && (r == j) then d else
     if (c == j) && (j < r < N)%N then A r j / d else
     if (j < c)%N && (c <= r < N)%N then A r c - (A r j / d) * (A c j / d)^* else A r c) ->
  chinv N j.+1 A0 B.
Proof.
  move=> H Hj hd hdd HB; have d0 : d != 0 by rewrite gt_eqF.
  have hdc : d^* = d by apply: realcj; exact: gtr0_real.
  have Bl r c : (c < j)%N -> B r c = A r c.
    by move=> hc; rewrite HB; case: (c =P j) => [?|_] /=; [lia|]; case: ifP => //; lia.
  have Bj r : (j <= r < N)%N -> B r j = A r j / d.
    move=> hr; rewrite HB eqxx /=; case: (r =P j) => [->|hn]; first by rewrite -hdd mulfK.
    by have -> : (j < r < N)%N by lia.
  split.
  - move=> i c Hc Hi; rewrite (ci_eq H Hc Hi); case: (ltnP c j) => hcj.
      have -> : minn j c.+1 = c.+1 by lia.
      have -> : minn j.+1 c.+1 = c.+1 by lia.
      have -> : (j < c)%N = false by lia.
      by congr (_ + _); apply: eq_big_nat => t ht; rewrite !Bl //; lia.
    have -> : minn j c.+1 = j by lia.
    have -> : minn j.+1 c.+1 = j.+1 by lia.
    rewrite big_nat_recr //= -addrA; congr (_ + _).
      by apply: eq_big_nat => t ht; rewrite !Bl //; lia.
    rewrite (Bj i) ?(Bj c); [|lia|lia].
    case: (ltnP j c) => hc2.
      rewrite HB; case: (c =P j) => [?|_] /=; first by lia.
      have -> : (j < c)%N && (c <= i < N)%N by lia.
      by rewrite addrC subrK.
    have Ec : c = j by lia. subst c; rewrite addr0.
    have hr : A j j \is Num.real by rewrite -hdd rpredM ?gtr0_real.
    have -> : (A j j / d)^* = d by rewrite -hdd mulfK.
    by rewrite divfK.
  - move=> t Ht; case: (ltnP t j) => h; first by rewrite Bl //; exact: (ci_pos H).
    have -> : t = j by lia. by rewrite HB !eqxx.
  - move=> t Ht; rewrite HB; case: (t =P j) => [?|_] /=; first by lia.
    have -> : (j < t)%N && (t <= t < N)%N by lia.
    rewrite -normCK; apply: rpredB; first by apply: (ci_real H); lia.
    by rewrite rpredX // normr_real.
  - move=> i c Hic; rewrite -(ci_out H Hic) HB.
    case: (c =P j) => [Ec|_] /=; last by case: ifP => //; lia.
    case: (i =P j) => [?|_]; first by lia.
    by case: ifP => [|_]; [lia|case: ifP => //; lia].
Qed.

(** Sums and positive definiteness. *)
Lemma hermlowE N k A0 A i j : chinv N k A0 A -> hermok N A0 -> (i < N)%N -> (j < N)%N ->
  hermlow A0 i j = \sum_(0 <= t < k) low A i t * (low A j t)^* +
    (if (k <= i)%N && (k <= j)%N then hermlow A i j else 0).
Proof.
  move=> H Hr.
  have key : forall i j, (j <= i)%N -> (i < N)%N -> (j < N)%N ->
    A0 i j = \sum_(0 <= t < k) low A i t * (low A j t)^* + (if (k <= j)%N then A i j else 0).
    move=> {i j} i j Hij Hi Hj; rewrite (ci_eq H Hij Hi); congr (_ + _).
    case: (ltnP j k) => hk; last first.
      have -> : minn k j.+1 = k by lia.
      by apply: eq_big_nat => t ht; rewrite /low; do 2 (case: ifP => [|?]; [|lia]).
    have -> : minn k j.+1 = j.+1 by lia.
    rewrite [RHS](@big_cat_nat _ _ _ j.+1) //= [X in _ = _ + X]big1_seq ?addr0; last first.
      move=> t /=; rewrite mem_index_iota /low => ht; case: (leqP t j) => [|_]; first by lia.
      by rewrite rmorph0 mulr0.
    by apply: eq_big_nat => t ht; rewrite /low; do 2 (case: ifP => [|?]; [|lia]).
  move=> Hi Hj; rewrite /hermlow; case: (leqP j i) => hij.
    rewrite key //; congr (_ + _); case: (leqP k j) => h2; last by rewrite andbF.
    by have -> : (k <= i)%N by lia.
  have hji := ltnW hij; rewrite key // rmorphD rmorph_sum /=; congr (_ + _).
    by apply: eq_bigr => t _; rewrite rmorphM conjCK mulrC.
  case: (leqP k i) => h2 /=; last by rewrite rmorph0.
  by have -> : (k <= j)%N by lia.
Qed.

Lemma qform_split N k A0 A x : chinv N k A0 A -> hermok N A0 -> (k <= N)%N ->
  qform N (hermlow A0) x = \sum_(0 <= t < k) `|\sum_(0 <= i < N) x i * low A i t| ^+ 2 +
    qform (N - k) (hermlow (subm k k A)) (subv k x).
Proof.
  move=> H Hr Hk; rewrite /qform.
  have E1 i j : (i < N)%N -> (j < N)%N -> x i * hermlow A0 i j * (x j)^* =
    \sum_(0 <= t < k) (x i * low A i t) * (x j * low A j t)^* +
    (if (k <= i)%N && (k <= j)%N then x i * hermlow A i j * (x j)^* else 0).
    move=> Hi Hj; rewrite (hermlowE H Hr Hi Hj) mulrDr mulrDl mulr_sumr mulr_suml; congr (_ + _).
      by apply: eq_bigr => t _; rewrite rmorphM /=; mring.
    by case: ifP; rewrite // mulr0 mul0r.
  have -> : \sum_(0 <= i < N) \sum_(0 <= j < N) x i * hermlow A0 i j * (x j)^* =
    \sum_(0 <= i < N) \sum_(0 <= j < N) (\sum_(0 <= t < k) (x i * low A i t) * (x j * low A j t)^* +
    (if (k <= i)%N && (k <= j)%N then x i * hermlow A i j * (x j)^* else 0)).
    by apply: eq_big_nat => i Hi; apply: eq_big_nat => j Hj; apply: E1; lia.
  rewrite (eq_bigr _ (fun i _ => big_split _ _ _ _ _)) big_split /=; congr (_ + _).
    rewrite (eq_bigr _ (fun i _ => exchange_big _ _ _ _ _ _)) exchange_big /=.
    apply: eq_bigr => t _; rewrite normCK rmorph_sum /= mulr_suml.
    by apply: eq_bigr => i _; rewrite mulr_sumr.
  rewrite (@big_cat_nat _ _ _ k) //= [X in X + _]big1_seq ?add0r; last first.
    move=> i /=; rewrite mem_index_iota => hi; apply: big1_seq => j _.
    by case: ifP => //; lia.
  rewrite -{1}[k]add0n big_addn; apply: eq_big_nat => i hi.
  rewrite (@big_cat_nat _ _ _ k) //= [X in X + _]big1_seq ?add0r; last first.
    move=> j /=; rewrite mem_index_iota => hj.
    by case: ifP => //; lia.
  rewrite -{1}[k]add0n big_addn; apply: eq_big_nat => j hj.
  have -> : (k <= i + k)%N && (k <= j + k)%N by lia.
  by rewrite /subv /hermlow /subm ![(_ + k)%N]addnC leq_add2l.
Qed.

(** Triangular systems x L = y. *)
Lemma tri_ex (S : fm C) N (y : fv C) : (forall i, (i < N)%N -> S i i != 0) ->
  exists x : fv C, forall t, (t < N)%N -> \sum_(0 <= i < N) x i * low S i t = y t.
Proof.
  elim: N y => [|N IH] y H; first by exists (fun _ => 0).
  have hN := H N (ltnSn N).
  have [x Hx] := IH (fun t => y t - y N / S N N * S N t) (fun i hi => H i (ltnW hi)).
  exists (updv x N (y N / S N N)) => t Ht; rewrite big_nat_recr //= /updv eqxx.
  case: (t =P N) => [->|hn].
    rewrite big1_seq ?add0r /low ?leqnn ?divfK // => i /=; rewrite mem_index_iota => hi.
    by case: (leqP N i) => [|_]; [lia | rewrite mulr0].
  have -> : \sum_(0 <= i < N) (if i == N then y N / S N N else x i) * low S i t = y t - y N / S N N * S N t.
    rewrite -Hx; last by lia. apply: eq_big_nat => i hi; case: eqP => // ?; lia.
  rewrite /low; case: (leqP t N) => [_|]; last by lia.
  by rewrite subrK.
Qed.
Lemma tri_zero (S : fm C) N (x : fv C) : (forall i, (i < N)%N -> S i i != 0) ->
  (forall t, (t < N)%N -> \sum_(0 <= i < N) x i * low S i t = 0) -> forall i, (i < N)%N -> x i = 0.
Proof.
  elim: N => [//|N IH] H Hx i Hi.
  have hx : x N = 0.
    have := Hx N (ltnSn N); rewrite big_nat_recr //= big1_seq ?add0r /low ?leqnn.
      by move/eqP; rewrite mulf_eq0 (negbTE (H N (ltnSn N))) orbF => /eqP.
    move=> j /=; rewrite mem_index_iota => hj.
    by case: (leqP N j) => [|_]; [lia | rewrite mulr0].
  case: (i =P N) => [->|hn] //; apply: IH; [by move=> j hj; apply: H; lia | | lia].
  move=> t Ht; have h1 : (t < N.+1)%N by lia.
  by have := Hx t h1; rewrite big_nat_recr //= hx mul0r addr0.
Qed.

Lemma notPD_ext N k A0 A : chinv N k A0 A -> hermok N A0 -> (k <= N)%N ->
  notPD (N - k) (subm k k A) -> notPD N A0.
Proof.
  move=> H Hr Hk [y [[i [Hi Hyi]] Hq]].
  pose S : fm C := fun i t => if (t < k)%N then A i t else (i == t)%:R.
  have hS : forall i, (i < N)%N -> S i i != 0.
    move=> j hj; rewrite /S; case: ifP => h; first by rewrite gt_eqF // (ci_pos H).
    by rewrite eqxx oner_eq0.
  have [x Hx] := tri_ex (fun t => if (t < k)%N then 0 else y (t - k)%N) hS.
  have Hx2 t : (k <= t < N)%N -> x t = y (t - k)%N.
    move=> Ht; have ht2 : (t < N)%N by lia.
    have := Hx t ht2; rewrite /low ltnNge (andP Ht).1 /= => <-.
    rewrite -[LHS]mulr1 -[X in x t * X](_ : (t == t)%:R = 1); last by rewrite eqxx.
    rewrite (bigD1_seq t) ?mem_index_iota ?iota_uniq //= /S.
    have -> : (t < k)%N = false by lia.
    rewrite leqnn big1 ?addr0 // => j hj; case: ifP => _; rewrite ?mulr0 //.
    by case: eqP hj => // _ _; rewrite mulr0.
  have Hx1 t : (t < k)%N -> \sum_(0 <= i < N) x i * low A i t = 0.
    move=> Ht; have ht2 : (t < N)%N by lia.
    by have := Hx t ht2; rewrite /low /S Ht.
  exists x; split.
    exists (k + i)%N; split; first by lia.
    by rewrite Hx2; [rewrite addKn | lia].
  rewrite (qform_split x H Hr Hk) big1_seq ?add0r; last first.
    by move=> t /=; rewrite mem_index_iota => ht; rewrite Hx1 ?normr0 ?expr0n //; lia.
  have -> : qform (N - k) (hermlow (subm k k A)) (subv k x) = qform (N - k) (hermlow (subm k k A)) y; last by [].
  apply: eq_big_nat => a ha; apply: eq_big_nat => b hb.
  by rewrite /subv !Hx2 ?addKn //; lia.
Qed.

Lemma notPD_lead N k A : (k <= N)%N -> notPD k A -> notPD N A.
Proof.
  move=> Hk [x [[i [Hi Hx]] Hq]]; exists (fun t => if (t < k)%N then x t else 0); split.
    by exists i; rewrite Hi; split=> //; lia.
  apply: le_trans Hq; rewrite le_eqVlt /qform; apply/orP; left; apply/eqP.
  rewrite (@big_cat_nat _ _ _ k) //= [X in _ + X]big1_seq ?addr0; last first.
    move=> a /=; rewrite mem_index_iota => ha; apply: big1_seq => b _.
    by case: ltnP => [|_]; [lia | rewrite !mul0r].
  apply: eq_big_nat => a ha; rewrite (@big_cat_nat _ _ _ k) //= [X in _ + X]big1_seq ?addr0; last first.
    move=> b /=; rewrite mem_index_iota => hb.
    by case: (ltnP b k) => [|_]; [lia | rewrite rmorph0 mulr0].
  apply: eq_big_nat => b hb; do 2 (case: ltnP => [_|]; last by lia); by [].
Qed.

Lemma notPD_diag N A : (0 < N)%N -> A 0%N 0%N <= 0 -> notPD N A.
Proof.
  move=> HN Ha; apply: (@notPD_lead N 1) => //; exists (fun _ => 1); split.
    by exists 0%N; rewrite oner_eq0.
  by rewrite /qform !big_nat1 /hermlow leqnn mul1r rmorph1 mulr1.
Qed.

Lemma chspec_pd N A0 A : chinv N N A0 A -> hermok N A0 -> posdef N (hermlow A0).
Proof.
  move=> H Hr x [i [Hi Hx]]; rewrite (qform_split x H Hr (leqnn N)) subnn.
  have -> : qform 0 (hermlow (subm N N A)) (subv N x) = 0 by rewrite /qform big_geq.
  rewrite addr0 lt_neqAle; apply/andP; split; last first.
    by rewrite big_seq_cond sumr_ge0 // => t _; rewrite exprn_ge0.
  apply: contra Hx => /eqP Hs; apply/eqP; apply: (@tri_zero A N) => //.
    by move=> t Ht; rewrite gt_eqF // (ci_pos H).
  move=> t Ht; move: (esym Hs); rewrite big_mkord => /psumr_eq0P Hz.
  have := Hz _ (Ordinal Ht) isT; rewrite /= => h; apply/eqP; rewrite -normr_eq0 -sqrf_eq0.
  by apply/eqP/h => j _; rewrite exprn_ge0.
Qed.

Lemma pd_notPD N A : notPD N A -> ~ posdef N (hermlow A).
Proof. by move=> [x [Hx Hq]] H; have := lt_le_trans (H x Hx) Hq; rewrite ltxx. Qed.

(** ** The pieces of the algorithm *)
Definition chpost (N : nat) A0 (o : outcome (fm C)) : Prop :=
  post (chinv N N A0) (fun e => e = NonPosDef /\ notPD N A0) o.

Lemma chcolP N j A0 A : chinv N j A0 A -> hermok N A0 -> (j < N)%N ->
  post (chinv N j.+1 A0) (fun e => e = NonPosDef /\ notPD N A0) (chcol N j A).
Proof.
  move=> H Hr Hj; have hj : A j j \is Num.real by apply: (ci_real H); lia.
  rewrite /chcol realre //; have := chkP hj; case: (chk _) => [d|e|] //=.
    case=> _ [hd hdd]; apply: (chinv_col H Hj hd hdd) => r c.
    rewrite /updm setre_real //; case: (c =P j) => [->|hc] /=.
      rewrite ltnn /=; case: (r =P j) => [->|hr] /=; first by rewrite ltnn.
      by [].
    rewrite andbF; case: ifP => // h; rewrite eqxx /=.
    have -> : (r == j) = false by apply/eqP; lia.
    by have [-> ->] : (j < r < N)%N /\ (j < c < N)%N by lia.
  case=> -> hd; split=> //; apply: (notPD_ext H Hr); first by lia.
  by apply: notPD_diag; [lia | rewrite /subm addn0].
Qed.

Lemma chlastP j A0 A : chinv j.+1 j A0 A -> hermok j.+1 A0 ->
  post (chinv j.+1 j.+1 A0) (fun e => e = NonPosDef /\ notPD j.+1 A0) (chlast j A).
Proof.
  move=> H Hr; have hj : A j j \is Num.real by apply: (ci_real H); lia.
  rewrite /chlast realre //; have := chkP hj; case: (chk _) => [d|e|] //=.
    case=> _ [hd hdd]; apply: (chinv_col H (ltnSn j) hd hdd) => r c.
    rewrite /updm setre_real //; case: (c =P j) => [->|hc] /=.
      by rewrite andbT ltnn /=; case: (r =P j) => // hr; case: ifP => //; lia.
    by rewrite andbF; case: ifP => //; lia.
  case=> -> hd; split=> //; apply: (notPD_ext H Hr); first by lia.
  by apply: notPD_diag; [lia | rewrite /subm addn0].
Qed.

Lemma NonBlockCH_colP N A : (0 < N)%N -> hermok N A -> chpost N A (NonBlockCH_col N A).
Proof.
  case: N => [//|N] _ Hr; rewrite /NonBlockCH_col /=; apply: post_bind.
  have := @loop_up_inv _ (fun j X => chinv N.+1 j A X) (fun e => e = NonPosDef /\ notPD N.+1 A) (chcol N.+1) N A (chinv0 Hr).
  move/(_ _)=> h; apply: post_imp (h _) => //.
    by move=> x Hx; exact: chlastP.
  by move=> i x Hi Hx; apply: chcolP => //; lia.
Qed.

Lemma chinv_block N k A0 A1 (Y : fm C) B : chinv k k A0 A1 -> hermok N A0 -> (k <= N)%N ->
  (forall r c, (k <= r < N)%N -> (c < k)%N ->
     \sum_(0 <= t < k) lower false (cjm A1) c t * Y r t = A1 r c) ->
  (forall r c, B r c = if (c < k)%N && (k <= r < N)%N then Y r c else
     if (k <= c)%N && (c <= r < N)%N then A1 r c - \sum_(0 <= t < k) Y r t * (Y c t)^* else A1 r c) ->
  chinv N k A0 B.
Proof.
  move=> H Hr Hk HY HB.
  have BL r c : (r < k)%N -> (c < k)%N -> B r c = A1 r c.
    move=> h1 h2; rewrite HB; case: ifP; first by lia.
    by case: ifP => //; lia.
  have BY r c : (c < k)%N -> (k <= r < N)%N -> B r c = Y r c by move=> h1 h2; rewrite HB h1 h2.
  have Ao r c : (k <= r)%N -> A1 r c = A0 r c by move=> h; apply: (ci_out H); lia.
  split.
  - move=> i j Hj Hi; case: (ltnP j k) => hjk.
      have -> : minn k j.+1 = j.+1 by lia.
      rewrite addr0; case: (ltnP i k) => hik.
        rewrite (ci_eq H Hj hik) ifN; last by lia.
        rewrite addr0; have -> : minn k j.+1 = j.+1 by lia.
        by apply: eq_big_nat => t ht; rewrite !BL //; lia.
      rewrite -Ao // -HY //; last by lia.
      rewrite (@big_cat_nat _ _ _ j.+1) //= [X in _ + X]big1_seq ?addr0; last first.
        move=> t /=; rewrite mem_index_iota /lower => ht.
        rewrite ifN; last by lia. rewrite ifN ?mul0r //; by lia.
      apply: eq_big_nat => t ht; rewrite (BL j) ?(BY i); try lia.
      rewrite mulrC /lower; case: (j =P t) => [->|hn] //.
      by have -> : (t < j)%N by lia.
    have -> : minn k j.+1 = k by lia.
    rewrite [B i j]HB; have -> : (j < k)%N && (k <= i < N)%N = false by lia.
    have -> : (k <= j)%N && (j <= i < N)%N by lia.
    rewrite -Ao; last by lia.
    rewrite [RHS]addrC -[LHS](subrK (\sum_(0 <= t < k) Y i t * (Y j t)^*)); congr (_ + _).
    by apply: eq_big_nat => t ht; rewrite !BY //; lia.
  - by move=> t Ht; rewrite BL //; exact: (ci_pos H).
  - move=> t Ht; rewrite HB; have -> : (t < k)%N && (k <= t < N)%N = false by lia.
    have -> : (k <= t)%N && (t <= t < N)%N by lia.
    apply: rpredB; first by rewrite Ao; [apply: Hr|]; lia.
    by apply: rpred_sum => u _; rewrite -normCK rpredX // normr_real.
  - move=> i j Hij; rewrite -(ci_out H); last by lia.
    rewrite HB ifN; last by lia. by rewrite ifN //; lia.
Qed.

(** A whole trailing block. *)
Lemma chinv_join N k A0 A V : chinv N k A0 A -> (k <= N)%N ->
  chinv (N - k) (N - k) (subm k k A) V -> chinv N N A0 (putm k k (N - k) (N - k) A V).
Proof.
  move=> H Hk HV; set B := putm _ _ _ _ _ _.
  have BA r c : (c < k)%N -> B r c = A r c by move=> h; rewrite /B /putm ifN //; lia.
  have BV r c : (k <= r < N)%N -> (k <= c < N)%N -> B r c = V (r - k)%N (c - k)%N.
    by move=> h1 h2; rewrite /B /putm ifT //; lia.
  split.
  - move=> i j Hj Hi; rewrite (ci_eq H Hj Hi).
    have -> : minn N j.+1 = j.+1 by lia.
    have -> : (N <= j)%N = false by lia. rewrite addr0.
    case: (ltnP j k) => hjk.
      have -> : minn k j.+1 = j.+1 by lia.
      by rewrite addr0; apply: eq_big_nat => t ht; rewrite !BA //; lia.
    have -> : minn k j.+1 = k by lia.
    have g1 : (j - k <= i - k)%N by lia. have g2 : (i - k < N - k)%N by lia.
    have := ci_eq HV g1 g2; rewrite /subm !subnKC //; last by lia.
    have -> : minn (N - k) (j - k).+1 = (j - k).+1 by lia.
    have -> : (N - k <= j - k)%N = false by lia. rewrite addr0 => ->.
    rewrite [RHS](@big_cat_nat _ _ _ k) //=; last by lia.
    congr (_ + _); first by apply: eq_big_nat => t ht; rewrite !BA //; lia.
    rewrite -[in RHS](add0n k) big_addn.
    have -> : (j.+1 - k)%N = (j - k).+1 by lia.
    by apply: eq_big_nat => t ht; rewrite !BV ?addnK //; lia.
  - move=> t Ht; case: (ltnP t k) => h; first by rewrite BA //; exact: (ci_pos H).
    by rewrite BV; [apply: (ci_pos HV)| |]; lia.
  - by move=> t; lia.
  - move=> i j Hij; rewrite -(ci_out H Hij) /B /putm; case: ifP => // h.
    rewrite (ci_out HV); last by lia.
    by rewrite /subm !subnKC //; lia.
Qed.

(** One row. *)
Lemma chrowP st i A0 A : chinv i i A0 A -> hermok i.+1 A0 ->
  post (chinv i.+1 i.+1 A0) (fun e => e = NonPosDef /\ notPD i.+1 A0) (chrow st i A).
Proof.
  move=> H Hr; rewrite /chrow; apply: post_bind.
  apply: post_imp (TriLDivEqLP st false i (cjm A) (fun k => A i k)).
    move=> x [h1 h2]; set A1 := setrow0 i x A.
    cbv zeta beta; have EA r c : A1 r c = if (r == i) && (c < i)%N then x c else A r c by [].
    clearbody A1.
    pose B : fm C := fun r c => if (c < i)%N && (i <= r < i.+1)%N then x c else
      if (i <= c)%N && (c <= r < i.+1)%N then A r c - \sum_(0 <= t < i) x t * (x t)^* else A r c.
    have HB : chinv i.+1 i A0 B.
      apply: (@chinv_block i.+1 i A0 A (fun _ c => x c)) => //.
      move=> r c Hrr Hc; have -> : r = i by lia.
      by rewrite -(h1 c Hc) big_mkord.
    have E : A1 i i = A i i by rewrite EA eqxx ltnn.
    have Ao : A i i = A0 i i by apply: (ci_out H); lia.
    have hr : A i i \is Num.real by rewrite Ao; apply: Hr.
    have Ed : 'Re (A1 i i) - \sum_(0 <= k < i) tNORM (A1 i k) = B i i.
      rewrite E realre // /B ltnn leqnn /=.
      rewrite ?leqnn /=; congr (_ - _); apply: eq_big_nat => t ht.
      by rewrite EA eqxx ht /= tNORM_conj.
    rewrite Ed; have hb : B i i \is Num.real by apply: (ci_real HB); lia.
    have := chkP hb; case: (chk _) => [e|e|] //=.
      case=> _ [he hee]; apply: (chinv_col HB (ltnSn i) he hee) => r c.
      rewrite /updm E setre_real //; case: (c =P i) => [->|hc] /=.
        rewrite andbT; case: (r =P i) => [//|hr2] /=.
        rewrite !EA /B; have -> : (r == i) = false by apply/eqP.
        rewrite !ltnn /=; case: ifP; first by lia.
        by case: ifP => //; lia.
      rewrite andbF; case: ifP; first by lia.
      move=> _; rewrite !EA /B; case: (r =P i) => [->|hr2] /=.
        case: ifP => h3; first by rewrite leqnn ltnSn.
        by case: ifP => //; lia.
      case: ifP; first by lia.
      by case: ifP => //; lia.
    case=> -> hd; split=> //; apply: (notPD_ext HB Hr); first by lia.
    by apply: notPD_diag; [lia | rewrite /subm addn0].
  move=> e [_ [_ [t [Ht /eqP E]]]]; exfalso; move: E.
  by rewrite /cjm conjC_eq0 gt_eqF // (ci_pos H).
Qed.

Lemma notPDw N k A0 : (k <= N)%N -> forall e, e = NonPosDef /\ notPD k A0 -> e = NonPosDef /\ notPD N A0.
Proof. by move=> h e [-> H]; split=> //; exact: notPD_lead H. Qed.

Lemma NonBlockCH_rowP st N A : (0 < N)%N -> hermok N A -> chpost N A (NonBlockCH_row st N A).
Proof.
  case: N => [//|N] _ Hr; rewrite /NonBlockCH_row /=; apply: post_bind.
  have h0 : hermok 1 A by move=> i hi; apply: Hr; lia.
  apply: post_imp (chlastP (chinv0 h0) h0).
    move=> x Hx; have -> : N.+1 = (1 + N)%N by [].
    apply: (@loop_iota_inv _ (fun j X => chinv j j A X)) => // i y Hi Hy.
    have h1 : hermok i.+1 A by move=> j hj; apply: Hr; lia.
    apply: post_imp (chrowP st Hy h1) => // e; apply: notPDw; lia.
  by apply: notPDw.
Qed.

Hypothesis tbP : (0 < tb)%N.
Hypothesis tb2P : (0 < tb2)%N.
Hypothesis nbP : (0 < nb)%N.
Hypothesis nb2P : (0 < nb2)%N.

Lemma chsolveP stA stB k N A0 A : chinv k k A0 A -> hermok N A0 -> (k <= N)%N ->
  post (fun B => chinv N k A0 (chrank k N B)) (fun _ => False) (chsolve tb tb2 stA stB k N A).
Proof.
  move=> H Hr Hk; rewrite /chsolve; apply: post_bind.
  apply: post_imp (TriLDivEqMLP tbP tb2P stA stB false k (N - k) (cjm A) (trm (subm k 0 A))).
    move=> X [h1 h2] /=; apply: (@chinv_block N k A0 A (fun r c => X c (r - k)%N)) => //.
      move=> r c Hrr Hc; have g : (r - k < N - k)%N by lia.
      have := h1 c _ Hc g; rewrite /trm /subm add0n subnKC; last by lia.
      by move=> <-; rewrite big_mkord.
    move=> r c; rewrite /chrank /putm /trm; case: ifP => h.
      rewrite ifN; last by lia.
      have -> : (c < k)%N && (k <= r < N)%N = false by lia.
      congr (_ - _); apply: eq_big_nat => t ht.
      do 2 (rewrite ifT; last by lia).
      by rewrite subn0.
    case: ifP => h3; first by rewrite ifT ?subn0 //; lia.
    by rewrite ifN //; lia.
  move=> e [_ [_ [t [Ht /eqP E]]]]; move: E.
  by rewrite /cjm conjC_eq0 gt_eqF // (ci_pos H).
Qed.

Lemma ch2P A0 : hermok 2 A0 ->
  chpost 2 A0 (do d <- chk ('Re (A0 0%N 0%N));
      let A := updm A0 0 0 d in
        let A10 := A 1%N 0%N / 'Re (A 0%N 0%N) in
        let A := updm A 1 0 A10 in
        do e <- chk ('Re (A 1%N 1%N) - tNORM A10);
        Ok (updm A 1 1 e)).
Proof.
  move=> Hr; have h0 : A0 0%N 0%N \is Num.real by apply: Hr.
  have h1 : A0 1%N 1%N \is Num.real by apply: Hr.
  rewrite realre //; have := chkP h0; case: (chk _) => [d|e|] //=; last first.
    by case=> -> hd; split=> //; apply: notPD_diag.
  case=> _ [hd hdd]; rewrite /updm /= (posre hd) (realre h1).
  set q := A0 1%N 0%N / d.
  pose B : fm C := fun r c => if (c == 0%N) && (r == 0%N) then d else
     if (c == 0%N) && (0 < r < 2)%N then A0 r 0%N / d else
     if (0 < c)%N && (c <= r < 2)%N then A0 r c - (A0 r 0%N / d) * (A0 c 0%N / d)^* else A0 r c.
  have HB : chinv 2 1 A0 B by apply: (chinv_col (chinv0 Hr) _ hd hdd).
  have Ed : A0 1%N 1%N - tNORM q = B 1%N 1%N by rewrite /B /= tNORM_conj.
  rewrite Ed; have hb : B 1%N 1%N \is Num.real by apply: (ci_real HB).
  have := chkP hb; case: (chk _) => [e|e|] //=.
    case=> _ [he hee]; apply: (chinv_col HB (ltnSn 1) he hee) => r c.
    rewrite /B; case: c => [|[|c]] /=; case: r => [|[|r]] //=.
    by have -> : (c.+1 < r.+2 < 2)%N = false by lia.
  case=> -> he; split=> //; apply: (notPD_ext HB Hr) => //.
  by apply: notPD_diag.
Qed.

Lemma RecCHP fuel iscm stA stB N A : (N < fuel)%N -> hermok N A ->
  chpost N A (RecCH tb tb2 nb nb2 fuel iscm stA stB N A).
Proof.
  elim: fuel N A => [//|f IH] N A Hf Hr /=.
  case: ltnP => h1.
    have Hk := halveP nbP nb2P h1; move: Hk; set k := halve nb N => Hk.
    have hk1 : (k < f)%N by lia. have hkN : (k <= N)%N by lia.
    have hr1 : hermok k A by move=> i hi; apply: Hr; lia.
    apply: post_bind; apply: post_imp (IH k A hk1 hr1); last by apply: notPDw.
    move=> A1 H1; apply: post_bind; apply: post_imp (chsolveP stA stB H1 Hr hkN); last by [].
    move=> A2 H2 /=; apply: post_bind.
    have hf2 : (N - k < f)%N by lia.
    have hr2 : hermok (N - k) (subm k k (chrank k N A2)).
      by move=> i hi; rewrite /subm; apply: (ci_real H2); lia.
    apply: post_imp (IH (N - k)%N _ hf2 hr2).
      by move=> V HV /=; apply: chinv_join.
    by move=> e [-> h]; split=> //; apply: (notPD_ext H2 Hr).
  case: ifP => h2.
    by case: (iscm); [apply: NonBlockCH_colP | apply: NonBlockCH_rowP] => //; lia.
  case: ltnP => h3; last first.
    by have -> : N = 0%N by lia; apply: chinv0 => i; lia.
  case: (N =P 2%N) => [E|hn2]; first by subst N; exact: ch2P.
  have E : N = 1%N by case/nandP: (negbT h2); lia.
  subst N; have h0 : A 0%N 0%N \is Num.real by apply: Hr.
  rewrite realre //; have := chkP h0; case: (chk _) => [d|e|] //=; last first.
    by case=> -> hd; split=> //; apply: notPD_diag.
  case=> _ [hd hdd]; apply: (chinv_col (chinv0 Hr) _ hd hdd) => // r c.
  rewrite /updm; case: c => [|c]; case: r => [|r] //=.
  by case: ifP => //; lia.
Qed.
End Proofs.
