(** Proofs about the LDL decomposition of tridiagonal matrices. *)
From Coq Require Import Ring Field.
From Verif Require Import Base FMat TriSolve TriInv RingTac LUDiv Cplx Chol CholDiv LDL LDLProofs BandTri BandLUDiv Claims_BandLU BandCH BandCHProofs.
From mathcomp Require Import all_ssreflect all_fingroup all_algebra zify.
Set Implicit Arguments. Unset Strict Implicit. Unset Printing Implicit Defensive.
Import GRing.Theory Num.Theory Order.Theory.
Local Open Scope ring_scope.

(** * Specification *)
Section Spec.
Variable C : numClosedFieldType.
(** The transpose, or the conjugate transpose, of a square matrix. *)
Definition csadj (herm : bool) n (M : 'M[C]_n) : 'M[C]_n := \matrix_(i, j) cs herm (M j i).
(** The diagonal of an array as a matrix. *)
Definition diagm n (A : fm C) : 'M[C]_n := \matrix_(i, j) (if i == j then A i j else 0).
End Spec.

Section Proofs.
Variable C : numClosedFieldType.
Add Field Cf3 : (mc_ft C).
Ltac mfield := mcnorm C; field.
Ltac mring := mcnorm C; ring.
Implicit Types (A m raw LL : fm C).

Section Herm.
Variable herm : bool.
Notation cs := (@cs C herm).

Record linv (N j : nat) A0 A : Prop := LInv {
  li_sub : forall t, (t < j)%N -> A0 t.+1 t = A t.+1 t * A t t;
  li_dia : forall t, (t <= j)%N -> A0 t t = A t t + (if t is q.+1 then A t q * A q q * cs (A t q) else 0);
  li_nz : forall t, (t < j)%N -> A t t != 0;
  li_real : forall t, (t < N)%N -> cs (A t t) = A t t;
  li_out : forall r c, ~~ ((r == c) && (r <= j)%N || (r == c.+1) && (c < j)%N) -> A r c = A0 r c }.

Lemma linv0 N A : diagok herm N A -> linv N 0 A A.
Proof. by move=> h; split=> // t; rewrite leqn0 => /eqP ->; rewrite addr0. Qed.

(** The unit lower bidiagonal factor. *)
Notation Lf A := (lower true (lband 1 A)).
Lemma Lf_d A r : Lf A r r = 1. Proof. by rewrite /lower eqxx. Qed.
Lemma Lf_s A r : Lf A r.+1 r = A r.+1 r.
Proof. by rewrite /lower ltnSn lband_in ?addn1 //; case: eqP => //; lia. Qed.
Lemma Lf_0 A r c : r <> c -> r <> c.+1 -> Lf A r c = 0.
Proof.
  move=> h1 h2; rewrite /lower; case: (r =P c) => // _; case: ifP => // h; apply: lband_out; lia.
Qed.

Lemma Lf_sum A k r g : (r < k)%N ->
  \sum_(0 <= t < k) Lf A r t * g t = g r + (if r is q.+1 then A r q * g q else 0).
Proof.
  move=> Hr; rewrite (@big_cat_nat _ _ _ r.+1) //= [X in _ + X]big1_seq ?addr0; last first.
    by move=> t; rewrite mem_index_iota /= => Ht; rewrite Lf_0 ?mul0r //; lia.
  rewrite big_nat_recr //= Lf_d mul1r addrC; congr (_ + _).
  case: r Hr => [|q] Hr; first by rewrite big_geq.
  rewrite big_nat_recr //= Lf_s big1_seq ?add0r // => t; rewrite mem_index_iota /= => Ht.
  by rewrite Lf_0 ?mul0r //; lia.
Qed.

Lemma linv_entry N j A0 A k r c : linv N j A0 A -> (k <= j.+1)%N -> (k <= N)%N -> (r < k)%N -> (c < k)%N ->
  \sum_(0 <= t < k) Lf A r t * (A t t * cs (Lf A c t)) = symlow herm (lband 1 A0) r c.
Proof.
  move=> H Hk HN Hr Hc; rewrite Lf_sum // /symlow.
  case: (ltngtP r c) => Hrc.
  - case: (c =P r.+1) => [E|Nc].
      subst c; rewrite Lf_s lband_in ?addn1 // (li_sub H); last by lia.
      rewrite csM (li_real H); last by lia.
      rewrite mulrC; case: (r) => [|q]; first by rewrite addr0.
      by rewrite Lf_0 ?cs0 ?mulr0 ?addr0 //; lia.
    rewrite (@lband_out _ 1 _ c r); last by lia.
    rewrite Lf_0 ?cs0 ?mulr0 ?add0r; try lia.
    case: r Hr Hrc Nc => [|q] // Hr Hrc Nc.
    by rewrite Lf_0 ?cs0 ?mulr0 //; lia.
  - case: r Hr Hrc => [|q] // Hr Hrc.
    rewrite (@Lf_0 A c q.+1) ?cs0 ?mulr0 ?add0r; try lia.
    case: (c =P q) => [E|Nc].
      by subst c; rewrite Lf_d cs1 mulr1 lband_in ?addn1 // (li_sub H) //; lia.
    by rewrite lband_out ?Lf_0 ?cs0 ?mulr0 //; lia.
  - subst c; rewrite Lf_d cs1 mulr1 lband_d (li_dia H); last by lia.
    congr (_ + _); case: (r) => [|q] //; by rewrite Lf_s mulrA.
Qed.

Lemma linv_mx N j A0 A k : linv N j A0 A -> (k <= j.+1)%N -> (k <= N)%N ->
  mx k k (Lf A) *m diagm k A *m csadj herm (mx k k (Lf A)) = mx k k (symlow herm (lband 1 A0)).
Proof.
  move=> H Hk HN; apply/matrixP => r c; rewrite !mxE -(linv_entry H Hk HN (ltn_ord r) (ltn_ord c)) big_mkord.
  apply: eq_bigr => t _; rewrite !mxE (bigD1 t) //= big1 ?addr0; last first.
    by move=> s Hs; rewrite !mxE (negPf Hs) mulr0.
  by rewrite !mxE eqxx mulrA.
Qed.

Lemma det_Lf k A : \det (mx k k (Lf A)) = 1.
Proof.
  rewrite det_trig; first by rewrite big1 // => i _; rewrite mxE Lf_d.
  by apply/is_trig_mxP => i j hij; rewrite mxE /lower ifN ?ifN //; lia.
Qed.
Lemma det_csadj n (M : 'M[C]_n) : \det (csadj herm M) = cs (\det M).
Proof.
  rewrite /csadj /LDL.cs; case: herm; first exact: det_adj.
  by rewrite -det_tr; congr (\det _); apply/matrixP => i j; rewrite !mxE.
Qed.
Lemma det_diagm n A : \det (diagm n A) = \prod_(i < n) A i i.
Proof.
  rewrite det_trig; first by apply: eq_bigr => i _; rewrite mxE eqxx.
  by apply/is_trig_mxP => i j hij; rewrite mxE ifN //; apply/eqP => E; subst j; lia.
Qed.

Lemma linv_det N j A0 A k : linv N j A0 A -> (k <= j.+1)%N -> (k <= N)%N ->
  \det (mx k k (symlow herm (lband 1 A0))) = \prod_(i < k) A i i.
Proof.
  move=> H Hk HN; rewrite -(linv_mx H Hk HN) !det_mulmx det_csadj det_Lf cs1 mulr1 mul1r; exact: det_diagm.
Qed.

Definition minor0 (N : nat) (H : fm C) : Prop := exists k, [/\ (0 < k)%N, (k <= N)%N & \det (mx k k H) = 0].

Lemma ldlstepP N j A0 A : (j.+1 < N)%N -> linv N j A0 A ->
  post (linv N j.+1 A0) (fun e => e = NonPosDef /\ minor0 N (symlow herm (lband 1 A0))) (ldlstep herm j A).
Proof.
  move=> Hj H; rewrite /ldlstep.
  have Hjj : cs (A j j) = A j j by apply: (li_real H); lia.
  rewrite hre_id //; case: eqP => [E|/eqP NE] /=.
    split=> //; exists j.+1; split=> //; first by lia.
    rewrite (linv_det H) //; last by lia.
    by rewrite big_ord_recr /= E mulr0.
  set l := _ / _; set v := if herm then _ else _.
  have Eo : A j.+1 j = A0 j.+1 j by apply: (li_out H); lia.
  have Ed : A j.+1 j.+1 = A0 j.+1 j.+1 by apply: (li_out H); lia.
  have El : A j.+1 j = l * A j j by rewrite /l mulfVK.
  clearbody l.
  have Ev : v = A j.+1 j.+1 - l * A j j * cs l /\ cs v = v.
    have hd := @li_real _ _ _ _ H j.+1 Hj.
    have hl : cs (l * A j j * cs l) = l * A j j * cs l by rewrite !csM csK Hjj; mring.
    suff E : v = A j.+1 j.+1 - l * A j j * cs l by split=> //; rewrite E csB hd hl.
    rewrite /v; have -> : updm A j.+1 j l j.+1 j.+1 = A j.+1 j.+1.
      by rewrite /updm; case: (j.+1 =P j) => [?|_]; [lia | rewrite andbF].
    move: hd hl El; rewrite /LDL.cs; case: herm => /= hd hl El.
      rewrite setre_real; last by apply/CrealP.
      rewrite (realre (x := A j.+1 j.+1)); last by apply/CrealP.
      rewrite El; have -> : l^* * (l * A j j) = l * A j j * l^* by mring.
      by rewrite realre //; apply/CrealP.
    by rewrite El; mring.
  case: Ev => Ev Evr.
  set A1 := updm (updm A j.+1 j l) _ _ _.
  have a1 : A1 j.+1 j = l.
    by rewrite /A1 /updm !eqxx /=; case: (j =P j.+1) => [?|_]; [lia | rewrite ?andbF].
  have a2 : A1 j.+1 j.+1 = v by rewrite /A1 /updm !eqxx.
  have a3 r c : ~~ ((r == j.+1) && ((c == j) || (c == j.+1))) -> A1 r c = A r c.
    by move=> h; rewrite /A1 /updm ifN ?ifN //; lia.
  split.
  - move=> t Ht; case: (t =P j) => [->|Ht2].
      by rewrite a1 a3 ?Eo -?Eo ?El //; lia.
    by rewrite !a3; [apply: (li_sub H) | | ]; lia.
  - move=> t Ht; case: (t =P j.+1) => [->|Ht2].
      by rewrite a1 a2 (a3 j j) -?Ed ?Ev ?subrK //; lia.
    rewrite (li_dia H); last by lia.
    rewrite (a3 t t); last by lia. congr (_ + _); case: t Ht Ht2 => [|q] // Ht Ht2.
    by rewrite !a3 //; lia.
  - move=> t Ht; rewrite a3; last by lia.
    case: (t =P j) => [->|Ht2] //; apply: (li_nz H); lia.
  - move=> t Ht; case: (t =P j.+1) => [->|Ht2]; first by rewrite a2.
    by rewrite a3; [apply: (li_real H) | lia].
  - by move=> r c Hrc; rewrite a3; [apply: (li_out H) | ]; lia.
Qed.

Lemma BLDLP dm N A : ~~ (~~ herm && dm) -> (0 < N)%N -> diagok herm N A ->
  post (fun R => linv N N.-1 A R /\ forall t, (t < N)%N -> R t t != 0)
       (fun e => e = NonPosDef /\ minor0 N (symlow herm (lband 1 A))) (BLDL herm dm N A).
Proof.
  move=> Hd HN Hr; rewrite /BLDL (negPf Hd); apply: post_bind.
  have h0 := linv0 Hr.
  have := @loop_up_inv _ (fun j => linv N j A) (fun e => e = NonPosDef /\ minor0 N (symlow herm (lband 1 A))) (ldlstep herm) N.-1 A h0.
  move=> h; apply: post_imp (h _) => [R HR| //|j Y Hj HY]; last by apply: ldlstepP => //; lia.
  rewrite /ldllast hre_id; last by apply: (li_real HR); lia.
  case: eqP => [E|/eqP NE] /=.
    split=> //; exists N; split=> //.
    by rewrite (linv_det HR) //; [case: (N) HN E => // n _ /= E; rewrite big_ord_recr /= E mulr0 | lia].
  split=> // t Ht; case: (t =P N.-1) => [->|Ht2] //; apply: (li_nz HR); lia.
Qed.

Lemma linv_minors N A R : linv N N.-1 A R -> (forall t, (t < N)%N -> R t t != 0) -> ~ minor0 N (symlow herm (lband 1 A)).
Proof.
  move=> H h [k [k1 k2]]; rewrite (linv_det H) //; last by lia.
  move/eqP; apply/negP; apply/prodf_neq0 => i _; apply: h; have := ltn_ord i; lia.
Qed.
End Herm.

(** ** The view *)
Definition cx (herm upper cj : bool) (x : C) : C := if (if herm then upper (+) cj else cj) then x^* else x.
Lemma cxM h u c x y : cx h u c (x * y) = cx h u c x * cx h u c y.
Proof. by rewrite /cx; case: ifP => // _; rewrite rmorphM. Qed.
Lemma cx0 h u c : cx h u c 0 = 0. Proof. by rewrite /cx; case: ifP => // _; rewrite rmorph0. Qed.
Lemma cx1 h u c : cx h u c 1 = 1. Proof. by rewrite /cx; case: ifP => // _; rewrite rmorph1. Qed.
Lemma cxcs h u c x : cx h u c (cs h x) = cs h (cx h u c x).
Proof. by rewrite /cx /cs; case: h; case: ifP. Qed.
Lemma cxcs2 herm u c x : cs herm x = x -> cs herm (cx herm u c x) = cx herm u c x.
Proof. by move=> h; rewrite -cxcs h. Qed.

Lemma symview_core herm upper cj N raw i j : diagok herm N raw -> (i < N)%N ->
  symview herm upper cj raw i j = cx herm upper cj (symlow herm (core upper raw) i j).
Proof.
  move=> Hd Hi; rewrite /symview /cx /symlow /core /trm /cs; move: (Hd i Hi) => {Hd}; rewrite /cs.
  by case: herm; case: upper; case: cj; case: (ltngtP i j) => h //=; rewrite ?conjCK //; subst j => // ->.
Qed.

Lemma mx_cx herm upper cj n (f : fm C) : mx n n (fun i j => cx herm upper cj (f i j)) = map_mx (cx herm upper cj) (mx n n f).
Proof. by apply/matrixP => i j; rewrite !mxE. Qed.
Lemma map_cx_mul herm upper cj n (M K : 'M[C]_n) :
  map_mx (cx herm upper cj) (M *m K) = map_mx (cx herm upper cj) M *m map_mx (cx herm upper cj) K.
Proof. by rewrite /cx; case: (if herm then _ else _); [rewrite map_mxM | rewrite !map_mx_id_in]. Qed.
Lemma det_cx herm upper cj n (M : 'M[C]_n) : \det (map_mx (cx herm upper cj) M) = cx herm upper cj (\det M).
Proof. by rewrite /cx; case: (if herm then _ else _); [rewrite det_map_mx | rewrite map_mx_id_in]. Qed.

Lemma symview_band herm upper cj N raw i j : diagok herm N raw -> (i < N)%N ->
  symview herm upper cj (band_of 1 1 raw) i j = cx herm upper cj (symlow herm (lband 1 (core upper raw)) i j).
Proof.
  move=> Hd Hi; rewrite (@symview_core herm upper cj N) //; last first.
    by move=> k Hk; rewrite bandof_lband // lband_d; exact: Hd.
  congr (cx _ _ _ _); rewrite /symlow; case: leqP => h; rewrite bandof_core bandof_lband //; lia.
Qed.

Lemma minor0_cx herm upper cj N (f : fm C) (g : fm C) : (forall i j, (i < N)%N -> g i j = cx herm upper cj (f i j)) ->
  minor0 N g <-> minor0 N f.
Proof.
  move=> h.
  have E k : (k <= N)%N -> \det (mx k k g) = cx herm upper cj (\det (mx k k f)).
    by move=> Hk; rewrite -det_cx -mx_cx; congr (\det _); apply/matrixP => i j; rewrite !mxE h //; have := ltn_ord i; lia.
  split=> - [k [h1 h2 h3]]; exists k; split=> //; move: h3; rewrite E //.
  - by rewrite /cx; case: (if herm then _ else _) => // /eqP; rewrite conjC_eq0 => /eqP.
  - by move=> ->; rewrite cx0.
Qed.

Lemma linv_view herm upper cj N raw R0 (R := core upper R0) : diagok herm N raw -> linv herm N N.-1 (core upper raw) R0 ->
  (0 < N)%N ->
  mx N N (lower true (symview herm upper cj (band_of 1 1 R))) *m diagm N (symview herm upper cj R) *m
     csadj herm (mx N N (lower true (symview herm upper cj (band_of 1 1 R)))) =
  mx N N (symview herm upper cj (band_of 1 1 raw)).
Proof.
  move=> Hd H HN; set c := cx herm upper cj.
  have HR : diagok herm N R by move=> i Hi; move: (li_real H Hi); rewrite /R /core /trm; case: (upper).
  have ER : core upper R = R0 by rewrite /R coreK.
  have EL : mx N N (lower true (symview herm upper cj (band_of 1 1 R))) = map_mx c (mx N N (lower true (lband 1 R0))).
    apply/matrixP => i j; rewrite !mxE /lower; case: eqP => [_|_]; first by rewrite /c cx1.
    case: ifP => h; last by rewrite /c cx0.
    by rewrite (symview_band _ _ _ HR) // ER /symlow ifT //; lia.
  have ED : diagm N (symview herm upper cj R) = map_mx c (diagm N R0).
    apply/matrixP => i j; rewrite !mxE; case: eqP => [E|_]; last by rewrite /c cx0.
    by rewrite (symview_core _ _ _ HR) // ER /symlow E leqnn.
  have EA : mx N N (symview herm upper cj (band_of 1 1 raw)) = map_mx c (mx N N (symlow herm (lband 1 (core upper raw)))).
    by apply/matrixP => i j; rewrite !mxE (symview_band _ _ _ Hd).
  have EC : csadj herm (map_mx c (mx N N (lower true (lband 1 R0)))) = map_mx c (csadj herm (mx N N (lower true (lband 1 R0)))).
    by apply/matrixP => i j; rewrite !mxE -cxcs.
  by rewrite EL ED EA EC -!map_cx_mul (linv_mx H) //; lia.
Qed.

(** Positive definiteness. *)
Lemma qform_mx N (H : fm C) (x : 'rV[C]_N) :
  qform N H (fun i => if insub i is Some o then x ord0 o else 0) = (x *m mx N N H *m (map_mx (fun z : C => z^*) x)^T) ord0 ord0.
Proof.
  rewrite /qform big_mkord; under eq_bigr => i _ do rewrite big_mkord. rewrite mxE.
  rewrite exchange_big /=; apply: eq_bigr => j _; rewrite !mxE mulr_suml; apply: eq_bigr => i _.
  by rewrite !mxE !valK.
Qed.

Lemma qform_ge0_mx N (H : fm C) : posdef N H -> forall x : 'rV[C]_N, x != 0 ->
  0 < (x *m mx N N H *m (map_mx (fun z : C => z^*) x)^T) ord0 ord0.
Proof.
  move=> h x Hx; rewrite -qform_mx; apply: h.
  case: (boolP [exists i, x ord0 i != 0]) => [/existsP [i Hi]|]; first by exists i; split=> //; rewrite valK.
  rewrite negb_exists => /forallP g; case/eqP: Hx; apply/rowP => i; rewrite mxE; apply/eqP.
  by have := g i; rewrite negbK.
Qed.
Lemma mx_ge0_qform N (H : fm C) : (forall x : 'rV[C]_N, x != 0 ->
  0 < (x *m mx N N H *m (map_mx (fun z : C => z^*) x)^T) ord0 ord0) -> posdef N H.
Proof.
  move=> h x [i [Hi Hx]]; pose v : 'rV[C]_N := \row_k x k.
  have Hv : v != 0.
    by apply: contraNneq Hx => E; have := congr1 (fun w : 'rV[C]_N => w ord0 (Ordinal Hi)) E; rewrite !mxE => ->.
  suff -> : qform N H x = (v *m mx N N H *m (map_mx (fun z : C => z^*) v)^T) ord0 ord0 by apply: h.
  rewrite -qform_mx /qform; apply: eq_big_nat => k Hk; apply: eq_big_nat => l Hl.
  have [Hk' Hl'] : (k < N)%N /\ (l < N)%N by lia.
  by rewrite (insubT (fun t => t < N)%N Hk') (insubT (fun t => t < N)%N Hl') /= !mxE.
Qed.

(** A positive definite matrix has no zero leading minor. *)
Lemma posdef_minors N (H : fm C) : posdef N H -> ~ minor0 N H.
Proof.
  move=> Hp [k [k1 k2 /eqP/det0P [v Hv E]]].
  have Hpk : posdef k H.
    move=> x [i [Hi Hx]]; pose y t := if (t < k)%N then x t else 0.
    have -> : qform k H x = qform N H y.
      rewrite /qform [RHS](@big_cat_nat _ _ _ k) //= [X in _ = _ + X]big1_seq ?addr0; last first.
        move=> t; rewrite mem_index_iota /= => Ht; rewrite big1 // => l _; rewrite /y ifN ?mul0r //; lia.
      apply: eq_big_nat => t Ht; rewrite [RHS](@big_cat_nat _ _ _ k) //= [X in _ = _ + X]big1_seq ?addr0; last first.
        move=> l; rewrite mem_index_iota /= => Hl; rewrite {2}/y ifN ?rmorph0 ?mulr0 //; lia.
      by apply: eq_big_nat => l Hl; rewrite /y !ifT //; lia.
    by apply: Hp; exists i; split; [lia | rewrite /y Hi].
  by have := qform_ge0_mx Hpk Hv; rewrite E mul0mx mxE ltxx.
Qed.

(** L D L^dagger with L invertible is positive definite if and only if D is positive. *)
Lemma posdef_ldl N (H L D : fm C) : mx N N L \in unitmx ->
  mx N N L *m diagm N D *m csadj true (mx N N L) = mx N N H ->
  posdef N H <-> forall i, (i < N)%N -> 0 < D i i.
Proof.
  move=> HL E.
  have Q (x : 'rV[C]_N) : (x *m mx N N H *m (map_mx (fun z : C => z^*) x)^T) ord0 ord0 =
     \sum_(i < N) D i i * ((x *m mx N N L) ord0 i * ((x *m mx N N L) ord0 i)^*).
    rewrite -E; set y := x *m mx N N L.
    have -> : x *m (mx N N L *m diagm N D *m csadj true (mx N N L)) *m (map_mx (fun z : C => z^*) x)^T =
              y *m diagm N D *m (map_mx (fun z : C => z^*) y)^T.
      rewrite /y !mulmxA -!mulmxA; congr (_ *m (_ *m (_ *m _))).
      apply/matrixP => i j; rewrite !mxE rmorph_sum; apply: eq_bigr => k _.
      by rewrite !mxE rmorphM mulrC /cs.
    clearbody y; rewrite mxE; apply: eq_bigr => i _; rewrite !mxE (bigD1 i) //= big1 ?addr0; last first.
      by move=> k Hk; rewrite !mxE (negPf Hk) mulr0.
    by rewrite mxE eqxx [y ord0 i * D i i]mulrC -mulrA.
  split=> [Hp i Hi|HD].
  - pose o := Ordinal Hi; pose x : 'rV[C]_N := delta_mx ord0 o *m invmx (mx N N L).
    have Ex : x *m mx N N L = delta_mx ord0 o by rewrite /x mulmxKV.
    have Hx : x != 0.
      apply/eqP => E0; move: Ex; rewrite E0 mul0mx => /matrixP /(_ ord0 o); rewrite !mxE !eqxx /= => /eqP.
      by rewrite eq_sym oner_eq0.
    have := qform_ge0_mx Hp Hx; rewrite Q Ex (bigD1 o) //= big1 ?addr0; last first.
      by move=> k Hk; rewrite mxE (negPf Hk) andbF mul0r mulr0.
    by rewrite mxE !eqxx /= rmorph1 !mulr1.
  - apply: mx_ge0_qform => x Hx; rewrite Q; set y := x *m _.
    have Hy : y != 0.
      by apply: contraNneq Hx => E0; rewrite -(mulmxK HL x) -/y E0 mul0mx.
    have G (i : 'I_N) : 0 <= D i i * (y ord0 i * (y ord0 i)^*).
      by apply: mulr_ge0; [apply: ltW; exact: HD | exact: mul_conjC_ge0].
    rewrite lt_neqAle sumr_ge0 // andbT eq_sym; apply: contraNneq Hy => E0.
    apply/eqP/rowP => i; rewrite [RHS]mxE.
    have Gi : D i i * (y ord0 i * (y ord0 i)^*) = 0 by apply: (psumr_eq0P _ E0) => // j _; exact: G.
    move/eqP: Gi; rewrite mulf_eq0 gt_eqF ?HD //=; by rewrite mul_conjC_eq0 => /eqP.
Qed.

(** LDL_Decompose on the stored array. *)
Lemma BLDL_DecomposeP herm dm upper cj N raw : ~~ (~~ herm && dm) -> (0 < N)%N -> diagok herm N raw ->
  let A := symview herm upper cj (band_of 1 1 raw) in
  post (fun R => [/\ mx N N (lower true (symview herm upper cj (band_of 1 1 R))) *m diagm N (symview herm upper cj R) *m
                       csadj herm (mx N N (lower true (symview herm upper cj (band_of 1 1 R)))) = mx N N A,
                     forall i, (i < N)%N -> R i i != 0 /\ cs herm (R i i) = R i i,
                     ~ minor0 N A &
                     forall i j, ~~ [&& (if upper then i <= j else j <= i)%N, (i <= j + 1)%N, (j <= i + 1)%N, (i < N)%N & (j < N)%N] -> R i j = raw i j])
       (fun e => e = NonPosDef /\ minor0 N A)
       (BLDL_Decompose herm dm upper N raw).
Proof.
  move=> Hdm HN Hd A; rewrite /BLDL_Decompose HN; apply: post_bind.
  have Hd2 : diagok herm N (core upper raw) by move=> i Hi; move: (Hd i Hi); rewrite /core /trm; case: (upper).
  have M : minor0 N A <-> minor0 N (symlow herm (lband 1 (core upper raw))).
    by apply: minor0_cx => i j Hi; exact: symview_band Hd Hi.
  apply: post_imp (@BLDLP herm dm N (core upper raw) Hdm HN Hd2) => [R0 [H1 H2]|e [-> h]] /=; last first.
    by split=> //; apply/M.
  split.
  - exact: linv_view.
  - by move=> i Hi; move: (H2 i Hi) (li_real H1 Hi); rewrite /core /trm; case: (upper).
  - by move/M; exact: linv_minors H1 H2.
  - move=> i j; move: (@li_out _ _ _ _ _ H1 i j) (@li_out _ _ _ _ _ H1 j i); rewrite /core /trm.
    case: (upper) => g1 g2 Hij; [apply: g2 | apply: g1]; lia.
Qed.
End Proofs.
