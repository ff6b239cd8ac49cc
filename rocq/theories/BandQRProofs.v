(** Proofs about the band QR decomposition: it is the QR decomposition of the whole
    array, restricted to where the band has elements. *)
From Coq Require Import Ring Field.
From mathcomp Require Import all_ssreflect all_fingroup all_algebra zify.
From Verif Require Import Base FMat TriSolve TriInv Claims_Tri LUDiv BandTri BandLU BandLUDiv RingTac Cplx Chol QR QRProofs QRDiv QRDivProofs BandQR.
Set Implicit Arguments. Unset Strict Implicit. Unset Printing Implicit Defensive.
Import GRing.Theory Num.Theory Order.Theory.
Local Open Scope ring_scope.

Section Step.
Variable C : numClosedFieldType.
Variable under : C -> bool.
Implicit Types (A V W Q m : fm C) (beta : fv C).

Lemma foldl_ext_in (T : Type) (f g : T -> nat -> T) (s : seq nat) (x : T) :
  (forall y i, i \in s -> f y i = g y i) -> foldl f x s = foldl g x s.
Proof.
  elim: s x => //= i s IH x h; rewrite h ?inE ?eqxx //; apply: IH => y j hj; apply: h.
  by rewrite inE hj orbT.
Qed.

Lemma iota_cut k E M : (k < E <= M)%N -> iota k.+1 (M - k.+1) = iota k.+1 (E - k.+1) ++ iota E (M - E).
Proof.
  move=> h; have -> : (M - k.+1 = (E - k.+1) + (M - E))%N by lia.
  by rewrite iotaD; congr (_ ++ iota _ _); lia.
Qed.
Lemma sum_cut k E M (f : nat -> C) : (k < E <= M)%N -> (forall i, (E <= i < M)%N -> f i = 0) ->
  \sum_(k.+1 <= i < M) f i = \sum_(k.+1 <= i < E) f i.
Proof.
  move=> h h0; rewrite (@big_cat_nat _ _ _ E) //=; [|lia|lia].
  have -> : \sum_(E <= i < M) f i = 0 by rewrite big_nat big1 // => i hi; apply: h0.
  by rewrite addr0.
Qed.

Lemma hscale_band E M k V W : (k < E <= M)%N ->
  (forall i, (k <= i < E)%N -> W i k = V i k) -> (forall i, (E <= i < M)%N -> W i k = 0) ->
  hscale M k W = hscale E k V.
Proof.
  move=> h h1 h0; rewrite /hscale h1; last lia.
  rewrite (iota_cut h) foldl_cat; set r := foldl _ 0 (iota k.+1 (E - k.+1)).
  have -> : foldl (fun s i => if s < tABS2 (V i k) then tABS2 (V i k) else s) 0 (iota k.+1 (E - k.+1)) = r.
    by apply: foldl_ext_in => y i; rewrite mem_iota => hi; rewrite h1 //; lia.
  have r0 : 0 <= r by have [] := foldmax W k (iota k.+1 (E - k.+1)) (lexx (0 : C)).
  suff -> : foldl (fun s i => if s < tABS2 (W i k) then tABS2 (W i k) else s) r (iota E (M - E)) = r by [].
  have : forall i, i \in iota E (M - E) -> W i k = 0 by move=> i; rewrite mem_iota => hi; apply: h0; lia.
  elim: (iota E (M - E)) => //= i s IH hs; rewrite hs ?inE ?eqxx //.
  have -> : tABS2 (0 : C) = 0 by rewrite /tABS2 !raddf0 normr0 addr0.
  have -> : (r < 0) = false by apply: le_gtF.
  by apply: IH => j hj; apply: hs; rewrite inE hj orbT.
Qed.

Lemma hreflect_band E M k V W d V1 b1 d1 : (k < E <= M)%N ->
  (forall i, (k <= i < E)%N -> W i k = V i k) -> (forall i, (E <= i < M)%N -> W i k = 0) ->
  hreflect under E k V d = (V1, b1, d1) ->
  exists W1, [/\ hreflect under M k W d = (W1, b1, d1),
    forall i, (k <= i < E)%N -> W1 i k = V1 i k, forall i, (E <= i < M)%N -> W1 i k = 0,
    forall i c, ~~ ((k <= i < M) && (c == k))%N -> W1 i c = W i c &
    forall i c, ~~ ((k <= i < E) && (c == k))%N -> V1 i c = V i c].
Proof.
  move=> h h1 h0; rewrite /hreflect (hscale_band h h1 h0).
  have hk : W k k = V k k by apply: h1; lia.
  have sb x0 (x x' : fv C) : (forall i, (k < i < E)%N -> x' i = x i) -> (forall i, (E <= i < M)%N -> x' i = 0) ->
    [/\ forall i, (k <= i < E)%N -> setbelow M k x0 x' W i k = setbelow E k x0 x V i k,
        forall i, (E <= i < M)%N -> setbelow M k x0 x' W i k = 0,
        forall i c, ~~ ((k <= i < M) && (c == k))%N -> setbelow M k x0 x' W i c = W i c &
        forall i c, ~~ ((k <= i < E) && (c == k))%N -> setbelow E k x0 x V i c = V i c].
    move=> hx hx0; split.
    - move=> i hi; rewrite /setbelow eqxx /= hi; have -> : (k <= i < M)%N by lia.
      by case: (i =P k) => // ne; apply: hx; lia.
    - move=> i hi; rewrite /setbelow eqxx /=; have -> : (k <= i < M)%N by lia.
      have -> : (i == k) = false by lia.
      exact: hx0.
    - by move=> i c; rewrite /setbelow andbC => /negPf ->.
    - by move=> i c; rewrite /setbelow andbC => /negPf ->.
  set sc := hscale E k V.
  case: ifP => _.
    by case=> <- <- <-; eexists; split; [reflexivity|..]; have [] := sb 0 (fun _ => 0) (fun _ => 0) (fun _ _ => erefl) (fun _ _ => erefl).
  have -> : \sum_(k.+1 <= i < M) tNORM (W i k * tINV sc) = \sum_(k.+1 <= i < E) tNORM (V i k * tINV sc).
    rewrite (sum_cut h) => [|i hi]; last by rewrite h0 // mul0r tNORM_conj mul0r.
    by rewrite [LHS]big_nat [RHS]big_nat; apply: eq_bigr => i hi; rewrite h1 //; lia.
  rewrite hk; case: ifP => _.
    by case=> <- <- <-; eexists; split; [reflexivity|..]; have [] := sb (V k k) (fun _ => 0) (fun _ => 0) (fun _ _ => erefl) (fun _ _ => erefl).
  set xV := (if (_ || _) then (fun i => V i k * _ * _) else _).
  set xW := (if (_ || _) then (fun i => W i k * _ * _) else _).
  have [g1 g2] : (forall i, (k < i < E)%N -> xW i = xV i) /\ (forall i, (E <= i < M)%N -> xW i = 0).
    rewrite /xV /xW; case: ifP => _; (split=> i hi; [rewrite h1 //; lia|by rewrite h0 // !mul0r]).
  set y := (if 0 < _ then _ else _) * sc.
  case=> <- <- <-; have [s1 s2 s3 s4] := sb y xV xW g1 g2.
  by eexists; split; first by reflexivity.
Qed.

(** One step of the band decomposition is a step on the whole array.  hi0 is the number
    of superdiagonals of the matrix given; hi >= lo + hi0 unless it is cut off at N-1. *)
Variables (M N lo hi hi0 : nat).
Definition agree V W : Prop := forall i j, (i < M)%N -> (j < N)%N -> W i j = bandm lo hi V i j.
Definition tail k W : Prop :=
  forall i j, (k <= i < M)%N -> (j < N)%N -> (i + hi0 < j)%N -> (k + hi <= j)%N -> W i j = 0.

Lemma step_band k V W d V1 b1 d1 : (k < N)%N -> (N <= M)%N -> (minn (lo + hi0) N.-1 <= hi)%N ->
  agree V W -> tail k W ->
  hreflectM under (minn (k + lo).+1 M) k (minn (k + hi).+1 N) V d = (V1, b1, d1) ->
  exists W1, [/\ hreflectM under M k N W d = (W1, b1, d1), agree V1 W1 & tail k.+1 W1].
Proof.
  move=> hk hM hh ag tl; rewrite /hreflectM; set E := minn (k + lo).+1 M; set F := minn (k + hi).+1 N.
  case E1 : hreflect => [[Va b] da]; have hE : (k < E <= M)%N by rewrite /E; lia.
  have hb i : (k <= i < E)%N -> W i k = V i k.
    by move=> hi1; rewrite ag; [rewrite /bandm ifT //; move: hi1; rewrite /E; lia|lia|lia].
  have h0 i : (E <= i < M)%N -> W i k = 0.
    by move=> hi1; rewrite ag; [rewrite /bandm ifN //; move: hi1; rewrite /E; lia|lia|lia].
  have [Wa [E2 p1 p2 p3 p4]] := hreflect_band hE hb h0 E1; rewrite E2.
  have aga : agree Va Wa.
    move=> i j hi1 hj1; case: (j =P k) => [->|ne].
      case: (ltnP i k) => hik.
        rewrite p3 ?ag // /bandm ?p4 //; lia.
      case: (ltnP i E) => hiE; first by rewrite p1 ?hik // /bandm ifT //; move: hiE; rewrite /E; lia.
      by rewrite p2 ?hiE // /bandm ifN //; move: hiE; rewrite /E; lia.
    have nj : (j == k) = false by lia.
    by rewrite p3 ?nj ?andbF // ag // /bandm p4 // nj andbF.
  have tla : tail k.+1 Wa.
    move=> i j hi1 hj1 hj2 hj3; rewrite p3; last lia.
    by apply: tl => //; lia.
  have far i j : (k <= i < E)%N -> (F <= j < N)%N -> Wa i j = 0.
    move=> hi1 hj1; have hj2 : (k + hi < j)%N by move: hj1; rewrite /F; lia.
    rewrite p3; last lia. apply: tl; move: hi1; rewrite /E; lia.
  case: (b =P 0) => [_|/eqP b0] /= [<- <- <-]; first by exists Wa.
  eexists; split; first by reflexivity.
    move=> i j hi1 hj1; rewrite /hlmult b0 [in RHS]/bandm /=.
    have ga : Wa i j = if (i <= j + lo)%N && (j <= i + hi)%N then Va i j else 0 by rewrite aga.
    set tW := (\sum_(k.+1 <= i0 < M) _ + Wa k j) * b.
    set tV := (\sum_(k.+1 <= i0 < E) _ + Va k j) * b.
    case: (ltnP k j) => hkj; last by [].
    case: (leqP k i) => hki; last by rewrite !andbF.
    rewrite hi1 hj1 /=; case: (ltnP i E) => hiE; last first.
      have -> : (i == k) = false by move: hiE; rewrite /E; lia.
      by rewrite p2 ?hiE // mul0r subr0 andbF.
    case: (ltnP j F) => hjF; last first.
      have -> : tW = 0.
        rewrite /tW (sum_cut hE) => [|l hl]; last by rewrite p2 // conjC0 mul0r.
        have hFj : (F <= j < N)%N by rewrite hjF hj1.
        rewrite (far k j _ hFj); last by rewrite leqnn; case/andP: hE.
        rewrite big_nat big1 ?addr0 ?mul0r // => l /andP [hl1 hl2].
        by rewrite (far l j _ hFj) ?mulr0 // hl2 ltnW.
      by rewrite mulr0 subr0 if_same.
    have inb l : (k <= l < E)%N -> Wa l j = Va l j.
      move=> hl; rewrite aga //; last lia. rewrite /bandm ifT //; move: hl hjF; rewrite /E /F; lia.
    have -> : tW = tV.
      rewrite /tW (sum_cut hE) => [|l hl]; last by rewrite p2 // conjC0 mul0r.
      rewrite inb; last lia. congr ((_ + _) * _); rewrite [LHS]big_nat [RHS]big_nat.
      by apply: eq_bigr => l hl; rewrite p1 ?inb //; lia.
    have -> : (i <= j + lo)%N && (j <= i + hi)%N by clear -hiE hjF hkj hki; rewrite /E /F in hiE hjF; lia.
    by rewrite !inb ?p1 ?hki //.
  move=> i j hi1 hj1 hj2 hj3; rewrite /hlmult b0.
  have hFj : (F <= j < N)%N by rewrite /F; lia.
  have -> : (\sum_(k.+1 <= i0 < M) (Wa i0 k)^* * Wa i0 j + Wa k j) * b = 0.
    rewrite (sum_cut hE) => [|l hl]; last by rewrite p2 // conjC0 mul0r.
    rewrite (far k j _ hFj); last by rewrite leqnn; case/andP: hE.
    rewrite big_nat big1 ?addr0 ?mul0r // => l /andP [hl1 hl2].
    by rewrite (far l j _ hFj) ?mulr0 // hl2 ltnW.
  by rewrite mulr0 subr0 !if_same; apply: tla.
Qed.

(** The whole loop. *)
Lemma BandQR_DecomposeP A V beta0 d0 : (0 < lo < M)%N -> (hi < N)%N -> (N <= M)%N -> (minn (lo + hi0) N.-1 <= hi)%N ->
  agree V (bandm lo hi0 A) ->
  exists V' beta d W, [/\ BandQR_Decompose under M N lo hi V beta0 d0 = (V', beta, d), agree V' W,
    qinv M 0 N N (bandm lo hi0 A) W (zb beta) d0 d, forall k, (N <= k)%N -> beta k = beta0 k &
    forall i c, ~~ ((i <= c + lo) && (c <= i + hi))%N -> V' i c = V i c].
Proof.
  move=> hlo hhi hM hh ag; rewrite /BandQR_Decompose ifN; last by lia.
  set A0 := bandm lo hi0 A.
  pose I j (s : fm C * fv C * C * (nat * nat)) := exists W,
    [/\ [/\ s.2 = (minn (j + lo).+1 M, minn (j + hi).+1 N), agree s.1.1.1 W & tail j W],
        qinv M 0 j N A0 W (zb s.1.1.2) d0 s.1.2, forall k, (j <= k)%N -> s.1.1.2 k = beta0 k &
        forall i c, ~~ ((i <= c + lo) && (c <= i + hi))%N -> s.1.1.1 i c = V i c].
  suff : I N (foldl (fun s j => bqstep under M N j s) (V, beta0, d0, (lo.+1, hi.+1)) (iota 0 N)).
    case: (foldl _ _ _) => [[[V' beta] d] p] [W [/= [_ a _] q f g]].
    by exists V', beta, d, W; split.
  refine (@fold_iota_inv _ I _ 0 N _ _ _).
    exists A0; split=> //=; last exact: qinv0.
    split=> //; first by congr (_, _); lia.
    by move=> i j _ _ h _; rewrite /A0 /bandm ifN //; lia.
  move=> j [[[Vj betaj] dj] p] hj [W [/= [-> a t] q f g]]; rewrite /bqstep.
  case E : hreflectM => [[V1 b1] d1].
  have [W1 [E1 a1 t1]] := step_band hj hM hh a t E.
  exists W1; split=> /=.
  - by split=> //; congr (_, _); case: ltnP => h; lia.
  - have q1 := hreflectMP (z := zb (updv betaj j b1)) (leq_trans hj hM) hj E1.
    have -> : j.+1 = (j + 1)%N by rewrite addn1.
    apply: (qinv_join _ _ q (q1 _)); first lia.
    + by move=> k hk; rewrite /zb /updv ifN //; lia.
    + by rewrite /zb /updv eqxx.
  - by move=> k hk; rewrite /updv ifN; [apply: f; lia|lia].
  - move=> i c hic; have q2 := hreflectMP (z := fun _ => b1^*) _ _ E erefl.
    by rewrite (qi_frame (q2 _ _)) ?g //; lia.
Qed.
End Step.

Lemma foldl_rel S T (R : nat -> S -> T -> Prop) (f : S -> nat -> S) (g : T -> nat -> T) lo n x y :
  R lo x y -> (forall j x y, (lo <= j < lo + n)%N -> R j x y -> R j.+1 (f x j) (g y j)) ->
  R (lo + n)%N (foldl f x (iota lo n)) (foldl g y (iota lo n)).
Proof.
  elim: n lo x y => [|n IH] lo x y h0 hs /=; first by rewrite addn0.
  rewrite addnS -addSn; apply: IH; first by apply: hs => //; lia.
  by move=> j x' y' hj; apply: hs; lia.
Qed.
Lemma foldl_rel_down S T (R : nat -> S -> T -> Prop) (f : S -> nat -> S) (g : T -> nat -> T) n x y :
  R n x y -> (forall j x y, (j < n)%N -> R j.+1 x y -> R j (f x j) (g y j)) ->
  R 0%N (foldl f x (down n)) (foldl g y (down n)).
Proof.
  move=> h0 hs; have -> : foldl f x (down n) = (foldl (fun p j => (f p.1 j, g p.2 j)) (x, y) (down n)).1.
    by elim: (down n) x y {h0} => //= a l IH x y; rewrite (IH _ (g y a)).
  have -> : foldl g y (down n) = (foldl (fun p j => (f p.1 j, g p.2 j)) (x, y) (down n)).2.
    by elim: (down n) x y {h0} => //= a l IH x y; rewrite (IH (f x a)).
  by apply: (@fold_down_inv _ (fun j p => R j p.1 p.2)) => // j [x' y'] hj h; apply: hs.
Qed.

Section Act0.
Variable C : numClosedFieldType.
(** A reflection whose vector is zero beyond E acts alike on E and on M rows. *)
Lemma hlmult_band E M k c0 c1 (v v' : fv C) b m m' : (k < E <= M)%N ->
  (forall i, (k < i < E)%N -> v' i = v i) -> (forall i, (E <= i < M)%N -> v' i = 0) ->
  (forall i c, m' i c = m i c) -> forall i c, hlmult M k c0 c1 v' b m' i c = hlmult E k c0 c1 v b m i c.
Proof.
  move=> hE h1 h2 hm i c; rewrite /hlmult; case: ifP => // _.
  have -> : \sum_(k.+1 <= l < M) (v' l)^* * m' l c = \sum_(k.+1 <= l < E) (v l)^* * m l c.
    rewrite (sum_cut hE) => [|l hl]; last by rewrite h2 // conjC0 mul0r.
    by apply: eq_big_nat => l hl; rewrite h1 // hm.
  rewrite !hm; case: (c0 <= c < c1)%N => //=; case: (i =P k) => [->|ne].
    by have [-> ->] : (k <= k < M)%N /\ (k <= k < E)%N by lia.
  case: (ltnP i E) => hi.
    case: (leqP k i) => //= hk; have -> : (i < M)%N by lia.
    by rewrite h1 //; lia.
  rewrite andbF; case: ifP => // hh; rewrite h2 ?mul0r ?subr0 //; lia.
Qed.

Section Act.
Variables (M N lo hi : nat) (V : fm C) (beta : fv C).
Hypotheses (hlo : (lo < M)%N) (hM : (N <= M)%N).
Let Q := bandm lo hi V.

Lemma BQ_LDivEqE K m i c : (0 < lo)%N -> BQ_LDivEq M N lo K V beta m i c = NBQLDivEq M N K Q beta m i c.
Proof.
  move=> l0; rewrite /BQ_LDivEq /NBQLDivEq l0.
  pose R n (s : fm C * nat) (m' : fm C) := s.2 = minn (n + lo).+1 M /\ forall i c, m' i c = s.1 i c.
  suff [_ e] : R (0 + N)%N
    (foldl (fun (s : fm C * nat) j => let: (m, i2) := s in
       (if beta j != 0 then hlmult i2 j 0 K (fun r => V r j) (beta j) m else m,
        if (i2 < M)%N then i2.+1 else i2)) (m, lo.+1) (iota 0 N))
    (foldl (fun m j => if beta j != 0 then hlmult M j 0 K (fun r => Q r j) (beta j) m else m) m (iota 0 N)).
    by rewrite e.
  refine (@foldl_rel _ _ R _ _ 0 N _ _ _ _); rewrite /R /=; first by split=> //; lia.
  move=> j [m1 i2] m2 hj /= [-> e]; split; first by case: ltnP => h; lia.
  move=> i' c'; case: ifP => // _; apply: hlmult_band => //; first lia.
    by move=> r hr; rewrite /Q /bandm ifT //; lia.
  by move=> r hr; rewrite /Q /bandm ifN //; lia.
Qed.
Lemma BQ_RDivEqE K m i c : (0 < lo)%N -> BQ_RDivEq M N lo K V beta m i c = NBQRDivEq M N K Q beta m i c.
Proof.
  move=> l0; rewrite /BQ_RDivEq /NBQRDivEq l0.
  set i2 := if _ then _ else _; set k := if _ then _ else _.
  pose R n (s : fm C * (nat * nat)) (m' : fm C) :=
    ((0 < n)%N -> s.2.1 = minn (n + lo) M /\ s.2.2 = (n + lo - minn (n + lo) M)%N) /\ forall i c, m' i c = s.1 i c.
  suff [_ e] : R 0%N
    (foldl (fun (s : fm C * (nat * nat)) j => let: (m, (i2, k)) := s in
       (if beta j != 0 then hlmult i2 j 0 K (fun r => (V r j)^*) (beta j) m else m,
        if (0 < k)%N then (i2, k.-1) else (i2.-1, k))) (trm m, (i2, k)) (down N))
    (foldl (fun m j => if beta j != 0 then hlmult M j 0 K (fun r => (Q r j)^*) (beta j) m else m) (trm m) (down N)).
    by rewrite {1}/trm [RHS]/trm e.
  refine (@foldl_rel_down _ _ R _ _ N _ _ _ _); rewrite /R /=.
    split=> // hN; rewrite /k /i2; case: (M =P N) => h /=.
      by rewrite h; split; lia.
    by split.
  move=> j [m1 [i2' k']] m2 hj /= [/(_ isT) [-> ->] e]; split.
    by move=> hj0; case: ltnP => h /=; lia.
  move=> i' c'; case: ifP => // _; apply: hlmult_band => //; first lia.
    by move=> r hr; rewrite /Q /bandm ifT //; lia.
  by move=> r hr; rewrite /Q /bandm ifN ?conjC0 //; lia.
Qed.

(** Unpacking. *)
Lemma BGetQloopE n Q1 Q2 : (n <= N)%N -> (forall i c, Q2 i c = Q1 i c) ->
  (forall i c, (c < n)%N -> (c + lo < i < M)%N -> Q2 i c = 0) ->
  forall i c, BandQR.BGetQloop M N lo n beta Q1 i c = GetQloop M N n beta Q2 i c.
Proof.
  elim: n Q1 Q2 => [|j IH] Q1 Q2 hn e z i c; first by rewrite /= e.
  rewrite [BandQR.BGetQloop _ _ _ _ _ _]/= [GetQloop _ _ _ _ _]/=.
  have [E [-> hE hE2]] : exists E, [/\ (if (M < j + lo + 1)%N then M else j + lo + 1)%N = E, (j < E <= M)%N &
      forall r, (E <= r < M)%N -> (j + lo < r)%N].
    by eexists; split; first by []; case: (ltnP M (j + lo + 1)) => h; [lia|lia|move=> r; lia|move=> r; lia].
  have e1 : forall i c, hlmult M j j.+1 N (fun r => Q2 r j) (beta j)^* Q2 i c
                      = hlmult E j j.+1 N (fun r => Q1 r j) (beta j)^* Q1 i c.
    apply: hlmult_band => // r hr; last by apply: z => //; have := hE2 r hr; lia.
  apply: IH; first lia.
    move=> i' c'; rewrite /hunpack; case: ifP => _; first by rewrite /updm e1.
    rewrite /setbelow; case: (c' =P j) => [->|ne] /=; last exact: e1.
    rewrite !e1; case: (ltnP i' E) => h.
      by have -> : (i' < M)%N by lia.
    rewrite andbF; case: ifP => // h'.
    have -> : (i' == j) = false by lia.
    rewrite -e1 hlmult_fr; last by lia.
    by rewrite z ?mul0r //; have := hE2 i'; lia.
  move=> i' c' hc hr; rewrite /hunpack; case: ifP => _.
    by rewrite /updm ifN; [rewrite hlmult_fr; [apply: z|]|]; lia.
  by rewrite /setbelow ifN; [rewrite hlmult_fr; [apply: z|]|]; lia.
Qed.

Lemma GetQFromBandQRE Q1 : (forall i c, (c < N)%N -> (c + lo < i < M)%N -> Q1 i c = 0) ->
  forall i c, GetQFromBandQR M N lo Q1 beta i c = GetQloop M N N beta (zeroup N Q1) i c.
Proof.
  by move=> z i c; apply: BGetQloopE => // i' c' hc hr; rewrite /zeroup; case: ifP => // _; apply: z.
Qed.
End Act.

(** What the constructor leaves: the factor Q in the reflections below the diagonal (none
    when lo = 0) and R in the upper band. *)
Section Bq.
Variables (M N lo hi : nat).
Implicit Types (A V m : fm C) (beta : fv C).
Definition Qb V beta : 'M[C]_(M, N) := if lo == 0%N then Em C M N else Qh M N (bandm lo hi V) beta.
Definition Rb V : 'M[C]_N := mx N N (upb false hi V).
Record isbq A V beta : Prop := IsBQ {
  bq_M : (N <= M)%N;
  bq_loM : (lo < M)%N;
  bq_hiN : (hi < N)%N;
  bq_unit : ctr (Qb V beta) *m Qb V beta = 1%:M;
  bq_fact : mx M N A = Qb V beta *m Rb V }.

Lemma isqr_ext A Q Q' beta : (forall i j, (i < M)%N -> (j < N)%N -> Q' i j = Q i j) ->
  isqr M N A Q beta -> isqr M N A Q' beta.
Proof.
  move=> e [h U F Z R].
  have eP : Pr M Q' (zb beta) 0 N = Pr M Q (zb beta) 0 N by apply: Pr_ext => // i k hk hi'; apply: e => //; lia.
  have eR : Rm N Q' = Rm N Q.
    by apply: mx_ext => i j hi' hj; rewrite /upper; case: ifP => _; [|case: ifP => // _]; apply: e; lia.
  split=> //; rewrite ?/Qh ?eP ?eR //.
    by move=> k hk b0 r hr; rewrite e; [apply: Z hr|lia|].
  by move=> k hk; rewrite e; [apply: R|lia|].
Qed.
Lemma RbE V : Rb V = Rm N (bandm lo hi V).
Proof.
  apply: mx_ext => i j _ _; rewrite /upb /upper /bandm; case: (i =P j) => [->|ne]; first by rewrite !leq_addr.
  by case: (ltnP i j) => h //; congr (if _ then _ else _); congr (_ && _); lia.
Qed.
Lemma isbq_isqr A V beta : (0 < lo < M)%N -> (hi < N)%N -> isqr M N A (bandm lo hi V) beta -> isbq A V beta.
Proof.
  move=> hlo hh I; have e0 : (lo == 0%N) = false by lia.
  split; rewrite ?(iq_M I) // /Qb ?e0 ?RbE; [lia|apply: (Qh_unit I)|apply: (iq_fact I)].
Qed.
Lemma isbq0 V beta : (N <= M)%N -> (0 < M)%N -> (hi < N)%N -> lo = 0%N -> isbq (bandm 0 hi V) V beta.
Proof.
  move=> h h0 hh e; split=> //; rewrite ?e // /Qb e eqxx; first exact: EmE.
  apply/matrixP => i j; rewrite !mxE.
  case: (ltnP i N) => hi'.
    rewrite (bigD1 (Ordinal hi')) //= big1 => [|k hk]; rewrite !mxE /=.
      rewrite eqxx mul1r addr0 /upb /upper; case: (i =P j :> nat) => // ne.
      by case: (ltnP i j) => hij //; rewrite /bandm ifN //; lia.
    case: eqP => [ee|_]; last by rewrite mul0r.
    by exfalso; move: hk; rewrite -val_eqE /= -ee eqxx.
  rewrite big1 => [|k _]; last first.
    rewrite !mxE; case: eqP => [ee|_]; last by rewrite mul0r.
    by exfalso; have := ltn_ord k; lia.
  by rewrite /bandm ifN //; have := ltn_ord j; lia.
Qed.
Lemma det_Rb V : \det (Rb V) = \prod_(0 <= i < N) V i i.
Proof.
  have -> : Rb V = Rm N (bandm 0 hi V) by [].
  by rewrite det_Rm; apply: eq_big_nat => i _; rewrite /bandm !leq_addr.
Qed.
Lemma zero_diag_Rb V e : zero_diag false N V e -> e = Singular /\ \det (Rb V) = 0.
Proof.
  case=> -> [_ [i [h z]]]; split=> //; rewrite det_Rb big_mkord.
  by apply/eqP/prodf_eq0; exists (Ordinal h); rewrite //= z.
Qed.

(** The two actions of Q. *)
Lemma BQ_LDivEqP A V beta K m : isbq A V beta -> mx N K (BQ_LDivEq M N lo K V beta m) = ctr (Qb V beta) *m mx M K m.
Proof.
  case=> h hl hh _ _; rewrite /Qb; case: posnP => [->|h0]; first by rewrite /BQ_LDivEq ltnn Em_rows.
  have hl' : (0 < lo < M)%N by lia.
  have -> : mx N K (BQ_LDivEq M N lo K V beta m) = mx N K (NBQLDivEq M N K (bandm lo hi V) beta m).
    by apply: mx_ext => i j _ _; apply: BQ_LDivEqE.
  have [e _] := linv_mx (NBQLDivEqP K (bandm lo hi V) beta m h).
  by rewrite /Qh ctrM -mulmxA -e Em_rows.
Qed.
Lemma BQ_RDivEqP A V beta K m : isbq A V beta -> (forall i j, (i < K)%N -> (N <= j < M)%N -> m i j = 0) ->
  mx K M (BQ_RDivEq M N lo K V beta m) = mx K N m *m ctr (Qb V beta).
Proof.
  case=> h hl hh _ _ z; rewrite /Qb; case: posnP => [->|h0]; first by rewrite /BQ_RDivEq ltnn; apply: Em_cols.
  have hl' : (0 < lo < M)%N by lia.
  have -> : mx K M (BQ_RDivEq M N lo K V beta m) = mx K M (NBQRDivEq M N K (bandm lo hi V) beta m).
    by apply: mx_ext => i j _ _; apply: BQ_RDivEqE.
  have [e _] := rinv_mx (NBQRDivEqP K (bandm lo hi V) beta m h).
  by rewrite e /Qh ctrM mulmxA -(Em_cols h z).
Qed.

Variables (stA stB : stor).
Lemma BQR_LDivP A V beta K m : isbq A V beta ->
  post (fun X => Rb V *m mx N K X = ctr (Qb V beta) *m mx M K m) (fun e => e = Singular /\ \det (Rb V) = 0)
    (BQR_LDiv stA stB M N lo hi K V beta m).
Proof.
  move=> I; rewrite /BQR_LDiv.
  apply: post_imp (BTriLDivEqMUP stA stB false N hi K V _) => [X [h _]|e /zero_diag_Rb //].
  rewrite -(BQ_LDivEqP K m I); exact/mx_mulP.
Qed.
Lemma Rb_tr V : mx N N (lob false hi (trm V)) = (Rb V)^T.
Proof.
  apply/matrixP => i j; rewrite !mxE /lob /upb /lower /upper /bandm /trm !addn0.
  rewrite [j == i :> nat]eq_sym; case E1: (i == j :> nat) => //; case E2: (j < i)%N => //; rewrite andbC; congr (if _ && _ then _ else _); lia.
Qed.
Lemma BQR_RDivP A V beta K m : isbq A V beta ->
  post (fun X => exists X1, mx K M X = X1 *m ctr (Qb V beta) /\ X1 *m Rb V = mx K N m)
    (fun e => e = Singular /\ \det (Rb V) = 0) (BQR_RDiv stA stB M N lo hi K V beta m).
Proof.
  move=> I; rewrite /BQR_RDiv; set x : fm C := fun i j => _; apply: post_bind.
  have := BTriLDivEqMLP (trst stA) (trst stB) false K (trm V) (trm x) (bq_hiN I).
  case: (BTriLDivEqML _ _ _ _ _ _ _ _) => [Y|e|] //=; last first.
    by case=> -> [_ [i [hi' z]]]; apply: zero_diag_Rb; split=> //; split=> //; exists i.
  move=> [/mx_mulP h3 h4]; exists (mx K N (trm Y)); split.
    apply: (BQ_RDivEqP I) => i j hi' hj; rewrite /trm h4 /trm; last by lia.
    by rewrite /x hi' hj.
  rewrite trm_mx -[Rb V]trmxK -trmx_mul -Rb_tr h3 trm_mx trmxK.
  by apply: mx_ext => i j hi' hj; rewrite /x ifN //; lia.
Qed.
Variable nb : nat.
Hypothesis nbP : (0 < nb)%N.
Lemma Rb_inv V X U : (forall i j, (i < N)%N -> (j < N)%N -> U i j = upb false hi V i j) ->
  TriInv.binv false 0 N X U -> [/\ Rb V *m mx N N (upper false X) = 1%:M, mx N N (upper false X) = mx N N X &
    forall i j, (N <= j)%N -> X i j = U i j].
Proof.
  move=> mE [h1 h2]; split; last by move=> i j hj; apply: h2; lia.
    apply/matrixP => i j; have Hi := ltn_ord i; have Hj := ltn_ord j; rewrite !mxE.
    have := h1 i j ltac:(lia) ltac:(lia); rewrite add0n big_mkord => h; transitivity ((nat_of_ord i == j)%:R : C) => //.
    rewrite -h; apply: eq_bigr => k _; rewrite !mxE; congr (_ * _).
    by rewrite /upper mE // /upb /upper; case: (ltngtP i k).
  apply: mx_ext => i j Hi Hj; rewrite /upper; case: (ltngtP i j) => // h.
  by rewrite h2 ?mE ?upb_gt //; lia.
Qed.
Lemma BTriInvP V U : (forall i j, (i < N)%N -> (j < N)%N -> U i j = upb false hi V i j) ->
  post (fun X => [/\ Rb V *m mx N N (upper false X) = 1%:M, mx N N (upper false X) = mx N N X &
      forall i j, (N <= j)%N -> X i j = U i j])
    (fun e => e = Singular /\ \det (Rb V) = 0) (BTriInverse nb false N hi U).
Proof.
  move=> mE; apply: post_imp (BTriInverseP nbP _ _) => //; first last.
  - by move=> i j Hi Hj Hij; rewrite mE ?upb_out //; lia.
  - move=> e [-> [_ [i [Hi Z]]]]; apply: zero_diag_Rb; split=> //; split=> //; exists i; split=> //.
    by rewrite -Z mE // upb_d.
  - by move=> X; apply: Rb_inv.
Qed.
Lemma BQR_InverseP A V beta : isbq A V beta ->
  post (fun X => exists2 Ri, Rb V *m Ri = 1%:M & mx N M X = Ri *m ctr (Qb V beta))
    (fun e => e = Singular /\ \det (Rb V) = 0) (BQR_Inverse nb M N lo hi V beta).
Proof.
  move=> I; rewrite /BQR_Inverse; set U : fm C := fun i j => _; apply: post_bind.
  have UE i j : (i < N)%N -> (j < N)%N -> U i j = upb false hi V i j.
    by move=> Hi Hj; rewrite /U Hj andbT /upb /upper; case: (ltngtP i j) => // ->.
  have := BTriInvP UE.
  case: (BTriInverse _ _ _ _ _) => [X|e|] //= [e1 e2 e3]; exists (mx N N X); first by rewrite -e2.
  by apply: (BQ_RDivEqP I) => i j hi' hj; rewrite e3 /U ?ifN //; lia.
Qed.
Lemma BQR_InverseATAP V : post (fun X => exists2 Ri, Rb V *m Ri = 1%:M & mx N N X = Ri *m Ri^T)
    (fun e => e = Singular /\ \det (Rb V) = 0) (BQR_InverseATA nb N hi V).
Proof.
  rewrite /BQR_InverseATA; apply: post_bind.
  have UE i j : (i < N)%N -> (j < N)%N -> bandm 0 hi V i j = upb false hi V i j.
    by move=> Hi Hj; rewrite /upb /upper; case: (ltngtP i j) => // h; rewrite /bandm ifN //; lia.
  have := BTriInvP UE.
  case: (BTriInverse _ _ _ _ _) => [X|e|] //= [e1 _ _]; exists (mx N N (upper false X)) => //.
  by apply/matrixP => i j; rewrite !mxE big_mkord; apply: eq_bigr => k _; rewrite !mxE.
Qed.
(*DBG*)
End Bq.
End Act0.
