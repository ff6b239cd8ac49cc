(** Proofs about the band Cholesky and tridiagonal LDL decompositions. *)
From Coq Require Import Ring Field.
From Verif Require Import Base FMat TriSolve TriInv RingTac LUDiv Cplx Chol CholDiv LDL LDLProofs BandTri BandLUDiv Claims_BandLU BandCH.
From mathcomp Require Import all_ssreflect all_fingroup all_algebra zify.
Set Implicit Arguments. Unset Strict Implicit. Unset Printing Implicit Defensive.
Import GRing.Theory Num.Theory Order.Theory.
Local Open Scope ring_scope.

Section CH.
Variable C : numClosedFieldType.
Implicit Types (A m raw LL : fm C).

(** The band of a lower triangle: zero more than nlo places below the diagonal. *)
Definition lband (nlo : nat) A : fm C := fun r c => if (c + nlo < r)%N then 0 else A r c.
Definition bfr (N nlo : nat) A0 A : Prop :=
  forall r c, ~~ [&& (c <= r)%N, (r <= c + nlo)%N & (r < N)%N] -> A r c = A0 r c.

Definition bchpost (N nlo : nat) A0 (o : outcome (fm C)) : Prop :=
  post (fun B => chinv N N (lband nlo A0) (lband nlo B) /\ bfr N nlo A0 B)
       (fun e => e = NonPosDef /\ notPD N (lband nlo A0)) o.

Lemma lband_d nlo A i : lband nlo A i i = A i i.
Proof. by rewrite /lband ifN //; lia. Qed.
Lemma lband_in nlo A r c : (r <= c + nlo)%N -> lband nlo A r c = A r c.
Proof. by move=> h; rewrite /lband ifN //; lia. Qed.
Lemma lband_out nlo A r c : (c + nlo < r)%N -> lband nlo A r c = 0.
Proof. by move=> h; rewrite /lband h. Qed.
Lemma lband_hermok N nlo A : hermok N A -> hermok N (lband nlo A).
Proof. by move=> h i Hi; rewrite lband_d; exact: h. Qed.

Lemma bchcolP N nlo j A0 A : (j < N)%N -> hermok N A0 ->
  chinv N j (lband nlo A0) (lband nlo A) -> bfr N nlo A0 A ->
  post (fun B => chinv N j.+1 (lband nlo A0) (lband nlo B) /\ bfr N nlo A0 B)
       (fun e => e = NonPosDef /\ notPD N (lband nlo A0)) (chcol (minn (j + nlo.+1) N) j A).
Proof.
  move=> Hj Hr H Hf; have Hr2 := @lband_hermok N nlo A0 Hr.
  have hj : A j j \is Num.real by rewrite -(lband_d nlo); apply: (ci_real H); lia.
  rewrite /chcol realre //; have := chkP hj; case: (chk _) => [d|e|] //=.
    case=> _ [hd hdd]; split.
      apply: (chinv_col H Hj hd); first by rewrite lband_d.
      move=> r c; rewrite /updm setre_real //.
      case: (ltnP (c + nlo) r) => hrc.
        rewrite !(@lband_out nlo _ r c) //.
        case: (c =P j) => [Ec|hc] /=.
          subst c; case: (r =P j) => [?|_]; first by lia.
          rewrite ltnn /=; case: ifP => _ //.
          by rewrite (@lband_out nlo _ r j) ?mul0r.
        case: ifP => // h; rewrite (@lband_out nlo _ r j) ?mul0r ?subr0 //; lia.
      rewrite !(@lband_in nlo _ r c) //; case: (c =P j) => [Ec|hc] /=.
        subst c; rewrite ltnn /=; case: (r =P j) => [->|hr] /=; first by rewrite ltnn.
        rewrite (@lband_in nlo _ r j); last by lia.
        by have -> : (j < r < minn (j + nlo.+1) N)%N = (j < r < N)%N by lia.
      rewrite andbF eqxx /=.
      case: (boolP ((j < c)%N && (c <= r < N)%N)) => h; last by rewrite ifN //; lia.
      case: (ltnP r (minn (j + nlo.+1) N)) => h2.
        rewrite ifT; last by lia.
        have -> : (r == j) = false by apply/eqP; lia.
        have [-> ->] : (j < r)%N /\ (j < c < minn (j + nlo.+1) N)%N by lia.
        rewrite /=.
        by rewrite !(@lband_in nlo _ _ j) //; lia.
      rewrite ifN; last by lia.
      by rewrite (@lband_out nlo _ r j) ?mul0r ?subr0 //; lia.
    move=> r c Hrc; rewrite -Hf // /updm.
    rewrite ifN; last by lia. rewrite ifN; last by lia. by rewrite ifN //; lia.
  case=> -> hd; split=> //; apply: (notPD_ext H Hr2); first by lia.
  by apply: notPD_diag; [lia | rewrite /subm addn0 lband_d].
Qed.

Lemma bchlastP N nlo j A0 A : (j < N)%N -> (N <= j.+1)%N || (nlo == 0%N) -> hermok N A0 ->
  chinv N j (lband nlo A0) (lband nlo A) -> bfr N nlo A0 A ->
  post (fun B => chinv N j.+1 (lband nlo A0) (lband nlo B) /\ bfr N nlo A0 B)
       (fun e => e = NonPosDef /\ notPD N (lband nlo A0)) (chlast j A).
Proof.
  move=> Hj Hl Hr H Hf; have := bchcolP Hj Hr H Hf; rewrite /chcol /chlast.
  case: (chk _) => [d|e|] //=.
  set B1 : fm C := fun r c => _; set B2 := updm A j j _.
  suff E r c : B1 r c = B2 r c.
    case=> h1 h2; split; last by move=> r c Hrc; rewrite -E h2.
    have El r c : lband nlo B2 r c = lband nlo B1 r c by rewrite /lband E.
    case: h1 => a b c0 d0; split.
    - move=> i k Hk Hi; rewrite (a i k Hk Hi) El; congr (_ + _); apply: eq_bigr => t _; by rewrite !El.
    - by move=> t Ht; rewrite El; exact: b.
    - by move=> t Ht; rewrite El; exact: c0.
    - by move=> i k Hik; rewrite El; exact: d0.
  rewrite /B1 /B2 /updm.
  rewrite [X in if X then _ else _](_ : _ = false); last by lia.
  by rewrite [X in if X then _ / _ else _](_ : _ = false) //; lia.
Qed.

Lemma BCH_diagP N A : hermok N A -> bchpost N 0 A (BCH_diag N A).
Proof.
  move=> Hr; rewrite /BCH_diag /bchpost.
  apply: (@loop_up_inv _ (fun j X => chinv N j (lband 0 A) (lband 0 X) /\ bfr N 0 A X)).
    by split=> //; apply: chinv0; exact: lband_hermok.
  by move=> j X Hj [h1 h2]; apply: bchlastP => //; rewrite eqxx orbT.
Qed.

Lemma BCH_colP N nlo A : (nlo < N)%N -> hermok N A -> bchpost N nlo A (BCH_col N nlo A).
Proof.
  move=> Hn Hr; rewrite /BCH_col /bchpost; apply: post_bind.
  pose I (j : nat) (X : fm C * nat) := [/\ chinv N j (lband nlo A) (lband nlo X.1), bfr N nlo A X.1
    & X.2 = minn (j + nlo.+1) N].
  apply: (@post_imp _ (I N.-1) _ (fun e => e = NonPosDef /\ notPD N (lband nlo A))) => //.
    move=> [X e] [/= h1 h2 _]; have := @bchlastP N nlo N.-1 A X ltac:(lia) ltac:(lia) Hr h1 h2.
    by apply: post_imp => // B; have -> : N.-1.+1 = N by lia.
  apply: (@loop_up_inv _ I).
    split=> //; first by apply: chinv0; exact: lband_hermok.
    by rewrite /=; lia.
  move=> j [X e] Hj [/= h1 h2 ->]; apply: post_bind.
  apply: post_imp (@bchcolP N nlo j A X ltac:(lia) Hr h1 h2) => // B [g1 g2]; split=> //=.
  by case: ifP => h; lia.
Qed.

Section Row.
Variables (stA stB : stor) (isrm iscm isdm : bool).

Lemma bandRDivEqP N nlo nhi K A m : (nlo < N)%N -> (nhi < N)%N -> \det (mx N N (band_of nlo nhi A)) != 0 ->
  exists X, [/\ bandRDivEq stA stB isrm iscm isdm N nlo nhi K A m = Ok X,
    mx K N X *m mx N N (band_of nlo nhi A) = mx K N m &
    forall i j, ~~ ((i < K)%N && (j < N)%N) -> X i j = m i j].
Proof.
  move=> h1 h2 h3; rewrite /bandRDivEq.
  have := @C44_right_division C stA stB isrm iscm isdm false N nlo nhi A (fun _ _ => 0) h1 h2 ltac:(by []) K m.
  case: (BandLUDiv_ctor _ _ _ _ _ _ _ _ _) => [[V P]|e|] //=.
  case: (bdoRDivEq _ _ _ _ _ _ _ _ _ _) => [X|e|] //=; last by case=> _ E; rewrite E eqxx in h3.
  by case=> E1 E2; exists X.
Qed.
Lemma bandLDivEqP N nlo nhi K A m : (nlo < N)%N -> (nhi < N)%N -> \det (mx N N (band_of nlo nhi A)) != 0 ->
  exists X, [/\ bandLDivEq stA stB isrm iscm isdm N nlo nhi K A m = Ok X,
    mx N N (band_of nlo nhi A) *m mx N K X = mx N K m &
    forall i j, ~~ ((i < N)%N && (j < K)%N) -> X i j = m i j].
Proof.
  move=> h1 h2 h3; rewrite /bandLDivEq.
  have := @C44_left_division C stA stB isrm iscm isdm false N nlo nhi A (fun _ _ => 0) h1 h2 ltac:(by []) K m.
  case: (BandLUDiv_ctor _ _ _ _ _ _ _ _ _) => [[V P]|e|] //=.
  case: (bdoLDivEq _ _ _ _ _ _ _ _ _ _) => [X|e|] //=; last by case=> _ E; rewrite E eqxx in h3.
  by case=> E1 E2; exists X.
Qed.

Lemma det_bandU N nhi A : (forall i, (i < N)%N -> A i i != 0) -> \det (mx N N (band_of 0 nhi A)) != 0.
Proof.
  move=> h; rewrite -det_tr det_trig; last first.
    by apply/is_trig_mxP => i j hij; rewrite !mxE /band_of ifN //; lia.
  apply/prodf_neq0 => i _; rewrite !mxE /band_of ifT; last by lia. exact: h.
Qed.
Lemma det_bandL N nlo A : (forall i, (i < N)%N -> A i i != 0) -> \det (mx N N (band_of nlo 0 A)) != 0.
Proof.
  move=> h; rewrite det_trig; last first.
    by apply/is_trig_mxP => i j hij; rewrite !mxE /band_of ifN //; lia.
  apply/prodf_neq0 => i _; rewrite !mxE /band_of ifT; last by lia. exact: h.
Qed.

Lemma bchrowP nlo i A0 A : (0 < nlo)%N -> (0 < i)%N -> hermok i.+1 A0 ->
  chinv i i (lband nlo A0) (lband nlo A) -> bfr i nlo A0 A ->
  post (fun Q => [/\ chinv i.+1 i.+1 (lband nlo A0) (lband nlo Q.1), bfr i.+1 nlo A0 Q.1 & Q.2 = (i - nlo)%N])
       (fun e => e = NonPosDef /\ notPD i.+1 (lband nlo A0))
       (bchrow stA stB isrm iscm isdm nlo i (A, (i.-1 - nlo)%N)).
Proof.
  move=> Hn Hi Hr H Hf; have Hr2 := @lband_hermok i.+1 nlo A0 Hr.
  rewrite /bchrow /=.
  have -> : (if (nlo < i)%N then (i.-1 - nlo).+1 else (i.-1 - nlo)%N) = (i - nlo)%N by case: ifP => ?; lia.
  set s := (i - nlo)%N; have Hs : (s < i)%N by rewrite /s; lia.
  set n := (i - s)%N; set nh := minn nlo n.-1; set U := trm _.
  have HU k : (k < n)%N -> U k k != 0.
    move=> Hk; rewrite /U /trm /cjm /subm conjC_eq0 -(lband_d nlo) gt_eqF //; apply: (ci_pos H); rewrite /n in Hk; lia.
  have [X [-> E1 E2]] := @bandRDivEqP n 0 nh 1 U (fun _ k => A i (s + k)%N) ltac:(rewrite /n; lia) ltac:(rewrite /nh /n; lia) (@det_bandU n nh U HU).
  rewrite /=; pose x : fv C := fun k => if (k < s)%N then 0 else X 0%N (k - s)%N.
  set A1 := setrowS i s _ A.
  have EA r c : lband nlo A1 r c = if (r == i) && (c < i)%N then x c else lband nlo A r c.
    rewrite /lband /A1 /setrowS; case: (r =P i) => [->|_] //=.
    case: (ltnP c i) => hc /=; last by rewrite andbF.
    rewrite andbT /x; case: (ltnP (c + nlo) i) => h.
      by rewrite ifT // /s; lia.
    by rewrite ltnNge; have -> : (s <= c)%N by rewrite /s; lia.
  have hx c : (c < i)%N -> \sum_(0 <= t < i) lower false (cjm (lband nlo A)) c t * x t = lband nlo A i c.
    move=> Hc; rewrite (@big_cat_nat _ _ _ s) //=; last by lia.
    rewrite big1_seq ?add0r; last first.
      by move=> t; rewrite mem_index_iota /= => Ht; rewrite /x ifT ?mulr0 //; lia.
    case: (ltnP c s) => hcs.
      rewrite (@lband_out nlo _ i c); last by rewrite /s in hcs; lia.
      rewrite big1_seq // => t; rewrite mem_index_iota /= => Ht.
      by rewrite /lower ifN; [rewrite ifN ?mul0r //; lia | lia].
    rewrite lband_in; last by rewrite /s in hcs; lia.
    have hcn : (c - s < n)%N by rewrite /n; lia.
    move/matrixP: E1 => /(_ ord0 (Ordinal hcn)); rewrite !mxE /= subnKC // => <-.
    rewrite -{1}[s]add0n big_addn big_mkord -/n; apply: eq_bigr => k _.
    rewrite !mxE /= mulrC /x ifN; last by lia. rewrite addnK; congr (_ * _).
    rewrite /band_of /lower /cjm /U /trm /cjm /subm subnKC // [(s + k)%N]addnC.
    have Hk := ltn_ord k; case: (c =P k + s)%N => [Ec|Nc].
      by rewrite Ec lband_d ifT //; lia.
    case: (ltnP (k + s) c) => h; last by rewrite ifN //; lia.
    case: (leqP c (k + s + nlo)%N) => h2.
      by rewrite (@lband_in nlo) // ifT // /nh; lia.
    by rewrite (@lband_out nlo) // rmorph0 ifN // /nh; lia.
  pose B : fm C := fun r c => if (c < i)%N && (i <= r < i.+1)%N then x c else
      if (i <= c)%N && (c <= r < i.+1)%N then lband nlo A r c - \sum_(0 <= t < i) x t * (x t)^* else lband nlo A r c.
  have HB : chinv i.+1 i (lband nlo A0) B.
    apply: (@chinv_block C i.+1 i (lband nlo A0) (lband nlo A) (fun _ c => x c)) => //.
    by move=> r c Hrr Hc; have -> : r = i by [lia]; exact: hx.
  have E : A1 i i = A i i by rewrite /A1 /setrowS ltnn !andbF.
  have Ao : A i i = A0 i i by apply: Hf; lia.
  have hr : A i i \is Num.real by rewrite Ao; apply: Hr.
  have Ed : 'Re (A1 i i) - \sum_(s <= k < i) tNORM (A1 i k) = B i i.
    rewrite E realre // /B ltnn leqnn /= lband_d ltnSn; congr (_ - _).
    rewrite [RHS](@big_cat_nat _ _ _ s) //=; last by lia.
    rewrite [X in _ = X + _]big1_seq ?add0r; last first.
      by move=> t; rewrite mem_index_iota /= => Ht; rewrite /x ifT ?mul0r //; lia.
    apply: eq_big_nat => t ht; have := EA i t; rewrite eqxx; have -> : (t < i)%N by lia.
    rewrite /= lband_in; last by rewrite /s in ht; lia.
    by move=> ->; rewrite tNORM_conj.
  rewrite Ed; have hb : B i i \is Num.real by apply: (ci_real HB); lia.
  have := chkP hb; case: (chk _) => [e|e|] //=.
    case=> _ [he hee]; split=> //.
      apply: (chinv_col HB (ltnSn i) he hee) => r c.
      have -> : lband nlo (updm A1 i i (setre (A1 i i) e)) r c = if (r == i) && (c == i) then e else lband nlo A1 r c.
        rewrite /lband /updm E setre_real //; case: (r =P i) => [->|_] //=; case: (c =P i) => [->|_] //=.
        by rewrite ifN //; lia.
      rewrite EA; case: (c =P i) => [->|hc] /=.
        rewrite andbT; case: (r =P i) => [//|hr2] /=.
        rewrite /B !ltnn /=; case: ifP; first by lia.
        by case: ifP => //; lia.
      rewrite andbF (_ : [&& _, _ & _] = false); last by lia.
      rewrite /B; case: (r =P i) => [->|hr2] /=.
        case: (ltnP c i) => h3 /=; first by rewrite leqnn ltnSn.
        have hci : (c <= i)%N = false by lia.
        by rewrite hci /= ?andbF.
      rewrite (_ : [&& _, _ & _] = false); last by lia.
      by rewrite (_ : [&& _, _ & _] = false) //; lia.
    move=> r c Hrc; rewrite -Hf; last by lia.
    rewrite /updm /A1 /setrowS; rewrite ifN; last by lia.
    by rewrite ifN // /s; lia.
  case=> -> hd; split=> //; apply: (notPD_ext HB Hr2); first by lia.
  by apply: notPD_diag; [lia | rewrite /subm addn0].
Qed.

Lemma BCH_rowP N nlo A : (0 < nlo)%N -> (nlo < N)%N -> hermok N A ->
  bchpost N nlo A (BCH_row stA stB isrm iscm isdm N nlo A).
Proof.
  move=> Hn HN Hr; rewrite /BCH_row /bchpost; apply: post_bind.
  have h0 : hermok 1 A by move=> i hi; apply: Hr; lia.
  have h1 : chinv 1 0 (lband nlo A) (lband nlo A) by apply: chinv0; exact: lband_hermok.
  have W k : (k <= N)%N -> forall e, e = NonPosDef /\ notPD k (lband nlo A) -> e = NonPosDef /\ notPD N (lband nlo A).
    by move=> h; apply: notPDw.
  apply: post_imp (@bchlastP 1 nlo 0 A A isT isT h0 h1 (fun _ _ _ => erefl)) => [X [g1 g2]|]; last by apply: W; lia.
  apply: post_bind.
  pose I (j : nat) (Q : fm C * nat) := [/\ chinv j j (lband nlo A) (lband nlo Q.1), bfr j nlo A Q.1 & Q.2 = (j.-1 - nlo)%N].
  apply: (@post_imp _ (I (1 + N.-1)%N) _ (fun e => e = NonPosDef /\ notPD N (lband nlo A))) => //.
    by move=> [Y q] [/=]; have -> : (1 + N.-1)%N = N by lia.
  apply: (@loop_iota_inv _ I) => //.
  move=> i [Y q] Hi [/= k1 k2 ->].
  have hi : hermok i.+1 A by move=> j hj; apply: Hr; lia.
  have := @bchrowP nlo i A Y Hn ltac:(lia) hi k1 k2; apply: post_imp => [[Z q'] [/= e1 e2 e3]|]; first by split.
  by apply: W; lia.
Qed.

(** CH_Decompose on the stored array. *)
Lemma bandof_core upper nlo A i j : core upper (band_of nlo nlo A) i j = band_of nlo nlo (core upper A) i j.
Proof. by rewrite /core /trm /band_of; case: upper => //; case: ifP => h; case: ifP => //; lia. Qed.
Lemma bandof_lband nlo A i j : (j <= i)%N -> band_of nlo nlo A i j = lband nlo A i j.
Proof. by move=> h; rewrite /band_of /lband; case: ifP => h1; case: ifP => //; lia. Qed.
Lemma coreK upper A : core upper (core upper A) = A.
Proof. by rewrite /core /trm; case: upper. Qed.

Lemma bchpost_facts upper cj N nlo raw V : hermok N raw ->
  chinv N N (lband nlo (core upper raw)) (lband nlo V) -> bfr N nlo (core upper raw) V ->
  [/\ chfacts upper cj N (band_of nlo nlo raw) (band_of nlo nlo (core upper V)),
      posdef N (hermview upper cj (band_of nlo nlo raw)) &
      forall i j, ~~ [&& (if upper then i <= j else j <= i)%N, (i <= j + nlo)%N, (j <= i + nlo)%N, (i < N)%N & (j < N)%N] ->
        core upper V i j = raw i j].
Proof.
  move=> Hr h1 h2; have Hrm : hermok N (band_of nlo nlo raw) by move=> i Hi; rewrite bandof_lband // lband_d; exact: Hr.
  set W := core upper (band_of nlo nlo (core upper V)).
  have EW i j : W i j = band_of nlo nlo V i j by rewrite /W bandof_core coreK.
  have hV : chinv N N (core upper (band_of nlo nlo raw)) W.
    case: h1 => a b c d; split.
    + move=> i j Hj Hi; rewrite bandof_core bandof_lband // (a i j Hj Hi) EW bandof_lband //; congr (_ + _).
      by apply: eq_big_nat => t Ht; rewrite !EW !bandof_lband //; lia.
    + by move=> t Ht; rewrite EW bandof_lband //; exact: b.
    + by move=> t Ht; rewrite EW bandof_lband //; exact: c.
    + move=> i j Hij; rewrite EW bandof_core /band_of; case: ifP => // h; apply: h2; lia.
  split.
  - by have := @chfactsP C 1 1 1 1 isT isT isT isT upper cj N _ W Hrm hV; rewrite /W coreK.
  - apply/(posdef_core upper cj Hrm); apply: (chspec_pd hV).
    by move=> i Hi; rewrite bandof_core bandof_lband // lband_d; move: (Hr i Hi); rewrite /core /trm; case: (upper).
  - move=> i j; move: (h2 i j) (h2 j i); rewrite /core /trm; case: (upper) => g1 g2 Hij; [apply: g2 | apply: g1]; lia.
Qed.

Lemma notPD_band upper cj N nlo raw : hermok N raw -> notPD N (lband nlo (core upper raw)) ->
  ~ posdef N (hermview upper cj (band_of nlo nlo raw)).
Proof.
  move=> Hr; have Hrm : hermok N (band_of nlo nlo raw) by move=> i Hi; rewrite bandof_lband // lband_d; exact: Hr.
  move=> h /(posdef_core upper cj Hrm) hp; apply: (pd_notPD h); apply: posdef_ext hp => i j _ _.
  by rewrite /hermlow; case: leqP => g; rewrite bandof_core bandof_lband //; lia.
Qed.

Lemma BCH_DecomposeP cm upper cj N nlo raw : (nlo < N)%N -> hermok N raw ->
  post (fun R => [/\ chfacts upper cj N (band_of nlo nlo raw) (band_of nlo nlo R),
                     posdef N (hermview upper cj (band_of nlo nlo raw)) &
                     forall i j, ~~ [&& (if upper then i <= j else j <= i)%N, (i <= j + nlo)%N, (j <= i + nlo)%N, (i < N)%N & (j < N)%N] -> R i j = raw i j])
       (fun e => e = NonPosDef /\ ~ posdef N (hermview upper cj (band_of nlo nlo raw)))
       (BCH_Decompose stA stB isrm iscm isdm cm upper N nlo raw).
Proof.
  move=> HN Hr.
  have Hr2 : hermok N (core upper raw) by rewrite /core /trm; case: (upper).
  have key : bchpost N nlo (core upper raw)
     (if (0 < N)%N then (if nlo == 0%N then BCH_diag N (core upper raw) else if cm then BCH_col N nlo (core upper raw)
        else BCH_row stA stB isrm iscm isdm N nlo (core upper raw)) else Ok (core upper raw)).
    rewrite ifT; last by lia.
    case: (nlo =P 0%N) => [E|Hn]; first by rewrite E; exact: BCH_diagP.
    case: ifP => _; first exact: BCH_colP.
    by apply: BCH_rowP => //; lia.
  rewrite /BCH_Decompose; apply: post_bind; apply: post_imp key.
  - by move=> V [h1 h2] /=; exact: bchpost_facts.
  - by move=> e [-> h]; split=> //; exact: notPD_band.
Qed.
End Row.
End CH.
