(** The loops of the bidiagonal QR iteration. *)
From Coq Require Import Ring Field.
From Verif Require Import Base FMat RowPerm LUDiv RingTac Cplx Givens QRProofs BidiagProofs BidiagQR BidiagQRProofs BidiagSweep Bidiag22 BidiagLoop.
From mathcomp Require Import all_ssreflect all_algebra zify.
Set Implicit Arguments. Unset Strict Implicit. Unset Printing Implicit Defensive.
Import GRing.Theory Num.Theory Order.Theory.
Local Open Scope ring_scope.

Section Proofs.
Variable C : numClosedFieldType.
Add Field Cf : (mc_ft C).
Ltac mring := mcnorm C; ring.
Implicit Types (c s x y : C) (X U B V : fm C) (D E : fv C) (st : bst C).
Variables M N P : nat.
Variable A0 : 'M[C]_(M, P).
Local Notation inv := (@inv C M N P A0).
Local Notation reals := (@reals C N).
Local Notation Inv := (@Inv C M N P A0).
Local Notation iso := (@iso C N).
Local Notation frm := (@frm C N).
Variable under : C -> bool.
Hypothesis underE : forall x, under x = (x == 0).

(** Chopping changes nothing in exact arithmetic, and finds the zeros. *)
Definition same st st' : Prop := [/\ sU st' = sU st, sV st' = sV st, sD st' =1 sD st & sE st' =1 sE st].
Lemma updv_0 (v : fv C) i : v i = 0 -> updv v i 0 =1 v.
Proof. by move=> h j; rewrite /updv; case: eqP => // ->. Qed.
Lemma chop_stepP p k D E zd : let r := chop_step 0 under p k (D, E, zd) in
  [/\ r.1.1 =1 D, r.1.2 =1 E & r.2 = zd || (D (p + k).+1 == 0)].
Proof.
  rewrite /chop_step !underE; set i := (p + k)%N.
  have e1 : (`|D i.+1| ^+ 2 == 0) = (D i.+1 == 0) by rewrite sqrf_eq0 normr_eq0.
  rewrite e1.
  have [D' [zd' [-> hD hz]]] : exists D' zd', [/\ (if D i.+1 == 0 then (updv D i.+1 0, true) else (D, zd)) = (D', zd'),
     D' =1 D & zd' = zd || (D i.+1 == 0)].
    by case: (D i.+1 =P 0) => [h|_]; do 2!eexists; split; rewrite ?orbT ?orbF //; exact: updv_0.
  rewrite mul0r underE.
  set E' := if _ then updv E i 0 else E.
  have hE : E' =1 E.
    rewrite /E'; case: ifP => // h; apply: updv_0.
    by move: h; rewrite normr_gt0 negbK orbb => /eqP.
  have z1 (a b : C) : (a * b == 0) && (a != 0) && (b != 0) = false :> bool.
    by rewrite mulf_eq0; case: (a == 0); case: (b == 0).
  rewrite z1 underE z1; by split.
Qed.
Lemma ChopP p n st : (0 < n)%N -> let r := Chop 0 under p n st in
  same st r.1 /\ (r.2 = false -> forall i, (p <= i < p + n)%N -> sD st i != 0).
Proof.
  move=> n0; rewrite /Chop underE.
  have e1 : (`|sD st p| ^+ 2 == 0) = (sD st p == 0) by rewrite sqrf_eq0 normr_eq0.
  rewrite e1.
  have [D' [zd' [-> hD hz]]] : exists D' zd', [/\ (if sD st p == 0 then (updv (sD st) p 0, true) else (sD st, false)) = (D', zd'),
     D' =1 sD st & zd' = (sD st p == 0)].
    by case: (sD st p =P 0) => [h|_]; do 2!eexists; split=> //; exact: updv_0.
  have H k : let r := foldl (fun t k => chop_step 0 under p k t) (D', sE st, zd') (iota 0 k) in
     [/\ r.1.1 =1 sD st, r.1.2 =1 sE st & r.2 = false -> forall i, (p <= i <= p + k)%N -> sD st i != 0].
    elim: k => [|k]; cbn zeta.
      cbn [foldl iota fst snd]; split=> //; rewrite hz => h i hi; have -> : i = p by lia.
      by rewrite h.
    rewrite foldl_iotaS; case: (foldl _ _ _) => [[D1 E1] z1]; cbn [fst snd] => -[h1 h2 h3].
    have := chop_stepP p k D1 E1 z1; cbn zeta; case=> k1 k2 k3; split.
    - by move=> i; rewrite k1 h1.
    - by move=> i; rewrite k2 h2.
    - rewrite k3 h1 => /negbT; rewrite negb_or => /andP [/negbTE hz1 hd] i hi.
      case: (i =P (p + k).+1) => [->//|hn]; apply: h3 => //; lia.
  have := H (n - 1)%N; cbn zeta.
  case: (foldl _ _ _) => [[D1 E1] z1]; cbn [fst snd] => -[h1 h2 h3].
  split; first by split.
  move=> hz1 i hi; apply: h3 => //; lia.
Qed.
Lemma same_Inv st st' : same st st' -> Inv st -> Inv st'.
Proof.
  move=> [eU eV eD eE] [hi [r1 r2]]; split; last by split=> i h; rewrite ?eD ?eE; auto.
  by rewrite eU eV; apply: inv_bidiE hi _ _ => i _; rewrite ?eD ?eE.
Qed.
Lemma same_frm o n st st' : same st st' -> frm o n st st'.
Proof. by move=> [_ _ eD eE]; split=> i _ _; rewrite ?eD ?eE. Qed.

Lemma frm_refl o n st : frm o n st st. Proof. by []. Qed.
Lemma frm_trans o n st1 st2 st3 : frm o n st1 st2 -> frm o n st2 st3 -> frm o n st1 st3.
Proof. by move=> [a b] [a' b']; split=> i h h'; rewrite ?a' ?b' ?a ?b. Qed.
Lemma frm_sub o n o' n' st st' : (o <= o')%N -> (o' + n' <= o + n)%N -> frm o' n' st st' -> frm o n st st'.
Proof. by move=> h1 h2 [a b]; split=> i h h'; [rewrite a|rewrite b] => //; lia. Qed.
Lemma iso_frm o n st st' : iso o n (sE st) -> frm o n st st' -> iso o n (sE st').
Proof.
  move=> [n0 hN h1 h2] [_ hE]; split=> // h; rewrite hE; auto; lia.
Qed.

Lemma srchP (cont : nat -> bool) q : let p := srch cont q in
  [/\ (p <= q)%N, (forall k, (p < k <= q)%N -> cont k) & (0 < p)%N -> ~~ cont p].
Proof.
  elim: q => [|q IH] /=; first by split=> // k; lia.
  case: ifP => [h|/negbT h]; last by split=> // k; lia.
  case: IH => h1 h2 h3; split=> //; first lia.
  by move=> k hk; case: (k =P q.+1) => [->//|hn]; apply: h2; lia.
Qed.

(** Making the values positive. *)
Lemma inv_neg U B V k : inv U B V ->
  inv U (fun i j => if j == k then - B i j else B i j)
        (fun r j => if (r == k) && (j < P)%N then - V r j else V r j).
Proof.
  move=> [h1 h2 h3].
  pose d : 'rV[C]_N := \row_a (if a == k :> nat then -1 else 1).
  have S1 : diag_mx d *m diag_mx d = 1%:M.
    rewrite mulmx_diag -diag_const_mx; congr diag_mx; apply/rowP => j; rewrite !mxE.
    by case: ifP => _; rewrite ?mulrNN mulr1.
  have cS : ctr (diag_mx d) = diag_mx d.
    apply/matrixP => i j; rewrite !mxE [j == i]eq_sym; case: (i =P j) => [->|_]; last by rewrite !mulr0n conjC0.
    by rewrite !mulr1n; case: ifP => _; rewrite ?rmorphN rmorph1.
  have eV : mx N P (fun r j => if (r == k) && (j < P)%N then - V r j else V r j) = diag_mx d *m mx N P V.
    apply/matrixP => i j; rewrite mul_diag_mx !mxE ltn_ord andbT.
    by case: ifP => _; rewrite ?mulN1r ?mul1r.
  have eB : mx N N (fun i j => if j == k then - B i j else B i j) = mx N N B *m diag_mx d.
    apply/matrixP => i j; rewrite mul_mx_diag !mxE.
    by case: ifP => _; rewrite ?mulrN1 ?mulr1.
  split=> //; first by rewrite eV ctrM cS mulmxA -[diag_mx d *m _ *m _]mulmxA h2 mulmx1.
  by rewrite eV eB !mulmxA -[_ *m diag_mx d *m diag_mx d]mulmxA S1 mulmx1.
Qed.
Lemma pos_stepP o n i st : Inv st -> (i < n)%N -> iso o n (sE st) ->
  (forall j, (o <= j)%N -> (j.+1 < o + n)%N -> sE st j = 0) ->
  let st' := pos_step P o st i in [/\ Inv st', frm o n st st', sE st' = sE st, 0 <= sD st' (o + i)%N &
    forall k, k <> (o + i)%N -> sD st' k = sD st k].
Proof.
  move=> [hi [r1 r2]] hin [_ hn Eo _] Ez; rewrite /pos_step; set k := (o + i)%N.
  have hk : (k < N)%N by lia.
  have rk := r1 _ hk.
  case: ifP => hneg; last first.
    split=> //; by rewrite real_leNgt ?(real0 _) // hneg.
  split; cbn [sU sD sE sV] => //.
  - split; last first.
      split=> [j hj|]; last exact: r2.
      cbn [sD]; rewrite /updv; case: (j =P k) => _; [by rewrite realN|exact: r1].
    apply: inv_ext (inv_neg k hi) _ => a b ha hb; cbn [sD sE]; rewrite /bidi /updv.
    case: (b =P k) => eb; last by case: (a =P b) => // e; rewrite e; move/eqP/negbTE: eb => ->.
    subst b; case: (a =P k) => [->//|na].
    case: eqP => e; last by rewrite oppr0.
    have -> : sE st a = 0; last by rewrite oppr0.
    case: (leqP o a) => ho; first by apply: Ez; lia.
    have ea : a = o.-1 by lia.
    by rewrite ea; apply: Eo; lia.
  - split=> // j hj hjo; cbn [sD]; rewrite /updv; case: (j =P k) => // e; exfalso; lia.
  - by rewrite /updv eqxx oppr_ge0 ltW.
  - by move=> j hj; cbn [sD]; rewrite /updv; case: (j =P k).
Qed.
Lemma MakePosP o n st : Inv st -> iso o n (sE st) ->
  (forall j, (o <= j)%N -> (j.+1 < o + n)%N -> sE st j = 0) ->
  let st' := MakePos P o n st in [/\ Inv st', frm o n st st', sE st' = sE st &
    forall i, (i < n)%N -> 0 <= sD st' (o + i)%N].
Proof.
  move=> iv hs Ez; rewrite /MakePos.
  have H k : (k <= n)%N -> let st' := foldl (pos_step P o) st (iota 0 k) in
    [/\ Inv st', frm o n st st', sE st' = sE st & forall i, (i < k)%N -> 0 <= sD st' (o + i)%N].
    elim: k => [_|k IH hk]; first by split.
    rewrite foldl_iotaS; have {}IH := IH (ltnW hk).
    move: (foldl _ _ _) IH => s1 [i1 f1 e1 p1].
    have hs1 := iso_frm hs f1.
    have Ez1 : forall j, (o <= j)%N -> (j.+1 < o + n)%N -> sE s1 j = 0 by rewrite e1.
    have [i2 f2 e2 p2 q2] := pos_stepP i1 hk hs1 Ez1.
    split=> //; [exact: frm_trans f1 f2|by rewrite e2|].
    move=> i hi; case: (i =P k) => [->//|hn].
    by rewrite q2; [apply: p1|]; lia.
  exact: H.
Qed.

(** The loops. *)
Variables (dclim esz : nat).
Variable dc : nat -> nat -> bst C -> run (bst C).
Definition zs (o n q : nat) st : Prop := forall i, (o + q <= i)%N -> (i.+1 < o + n)%N -> sE st i = 0.
Definition nzD (o n : nat) st : Prop := forall i, (o <= i < o + n)%N -> sD st i != 0.
Definition post (o n : nat) st (r : run (bst C)) : Prop :=
  match r with
  | Done st' => [/\ Inv st', frm o n st st' & zs o n 0 st']
  | Outside => (esz < N)%N
  | More => True
  end.
Hypothesis dcP : forall o n st, (dclim < n)%N -> Inv st -> iso o n (sE st) -> nzD o n st -> post o n st (dc o n st).
Local Notation QRdec := (QRdec 0 under dclim dc M P esz).
Local Notation DoDec := (DoDec 0 under dclim dc M P esz).
Local Notation DoLoop := (DoLoop 0 under dclim dc M P esz).
Local Notation NZ := (NZ 0 under dclim dc M P esz).

Lemma QRdecS f o n q st : QRdec f.+1 o n q st =
  if q is q'.+1 then
      if sE st (o + q')%N == 0 then QRdec f o n q' st
      else
        let p := srch (fun p => sE st (o + p - 1)%N != 0) q' in
        let st := Reduce 0 M P (o + p) (q - p + 1) st in
        let: (st, zd) := Chop 0 under (o + p) (q - p + 1) st in
        if zd then bindR (DoDec f (o + p) (q - p + 1) st) (fun st => QRdec f o n p st)
        else QRdec f o n q st
    else Done st.
Proof. by []. Qed.
Lemma DoDecS f o n st : DoDec f.+1 o n st = DoLoop f o n (n - 1) (Chop 0 under o n st).1.
Proof. by []. Qed.
Lemma DoLoopS f o n q st : DoLoop f.+1 o n q st =
    if q is q'.+1 then
      if sE st (o + q')%N == 0 then DoLoop f o n q' st
      else if sD st (o + q)%N == 0 then
        let p := srch (fun p => sE st (o + p - 1)%N != 0) q' in
        DoLoop f o n q' (ZeroLastCol 0 P (o + p) (q - p) st)
      else
        let p := srch (fun p => (sE st (o + p - 1)%N != 0) && (sD st (o + p)%N != 0)) q' in
        bindR (if sD st (o + p)%N == 0 then ZeroFirstRow 0 M esz (o + p) (q - p) st else Done st) (fun st' =>
        let p := if sD st (o + p)%N == 0 then p.+1 else p in
        bindR (if (p < q)%N then NZ f (o + p) (q - p + 1) st' else Done st') (fun st =>
        DoLoop f o n p st))
    else Done st.
Proof. by []. Qed.
Lemma NZS f o n st : NZ f.+1 o n st =
    if (n <= dclim)%N then
      bindR (if (1 < n)%N then QRdec f o n (n - 1) st else Done st) (fun st => Done (MakePos P o n st))
    else dc o n st.
Proof. by []. Qed.

Lemma post_frm o n st st1 r : frm o n st st1 -> post o n st1 r -> post o n st r.
Proof. by case: r => // s2 f [h1 h2 h3]; split=> //; apply: frm_trans f h2. Qed.

Definition Qpre (o n q : nat) st : Prop :=
  [/\ Inv st, iso o n (sE st), (q < n)%N, zs o n q st &
      (forall j, (j < q)%N -> sD st (o + j)%N != 0) /\
      ((0 < q)%N -> sE st (o + q).-1 != 0 -> sD st (o + q)%N != 0)].
Definition Lpre (o n q : nat) st : Prop := [/\ Inv st, iso o n (sE st), (q < n)%N & zs o n q st].

Lemma loops f :
  (forall o n q st, Qpre o n q st -> post o n st (QRdec f o n q st)) /\
  (forall o n st, Inv st -> iso o n (sE st) -> post o n st (DoDec f o n st)) /\
  (forall o n q st, Lpre o n q st -> post o n st (DoLoop f o n q st)) /\
  (forall o n st, Inv st -> iso o n (sE st) -> nzD o n st -> post o n st (NZ f o n st)).
Proof.
  elim: f => [|f [IQ [ID [IL IN]]]]; first by do !split.
  split; last split; last split.
  - move=> o n [|q] st [iv hs hq hz [hD hDq]]; rewrite QRdecS; first by split.
    cbv zeta.
    case: eqP => [e0|/eqP e0].
      apply: IQ; split=> //; [lia| |split; last by move=> _ _; apply: hD].
      + move=> i h1 h2; case: (i =P (o + q)%N) => [->//|hn]; apply: hz => //; lia.
      + by move=> j hj; apply: hD; lia.
    have := srchP (fun p => sE st (o + p - 1)%N != 0) q; set p := srch _ q; case=> hp hc hp0.
    have [n0 hN Eo Eq] := hs.
    have Dq : sD st (o + q.+1)%N != 0 by apply: hDq => //; rewrite addnS.
    set m := (q.+1 - p + 1)%N.
    have hso : iso (o + p) m (sE st).
      split; [lia|lia| |].
      + move=> h; case: (posnP p) => [hp1|hp1].
          by rewrite hp1 addn0 in h *; exact: Eo.
        by have := hp0 hp1; rewrite negbK subn1 => /eqP.
      + move=> h; have -> : (o + p + m).-1 = (o + q.+1)%N by lia.
        case: (ltnP (o + q.+1).+1 (o + n)) => h'; first exact: hz.
        have -> : (o + q.+1)%N = (o + n).-1 by lia.
        by apply: Eq; lia.
    have nD : forall i, (o + p <= i < o + p + m)%N -> sD st i != 0.
      move=> i hi; case: (i =P (o + q.+1)%N) => [->//|hn].
      have -> : i = (o + (i - o))%N by lia.
      by apply: hD; lia.
    have nE : sE st (o + p)%N != 0.
      case: (p =P q) => [->//|hn].
      have := hc p.+1; have -> : (o + p.+1 - 1 = o + p)%N by lia.
      by apply; lia.
    have m2 : (2 <= m)%N by lia.
    have m0 : (0 < m)%N by lia.
    have [iv1 f1] := ReduceP iv m2 hso nD nE.
    set st1 := Reduce _ _ _ _ _ _ in iv1 f1 *.
    have := ChopP (o + p) st1 m0; case: (Chop _ _ _ _ _) => st2 zd; cbn [fst snd] => -[sm hzd].
    have iv2 := same_Inv sm iv1.
    have f2 := frm_trans f1 (same_frm (o + p) m sm).
    have hs2 := iso_frm hso f2.
    have fo : frm o n st st2 by apply: frm_sub f2; lia.
    have hz2 : zs o n q.+1 st2.
      by move=> i h1 h2; have [_ ->] := f2; [apply: hz|lia|lia].
    case: zd hzd => hzd.
      have := ID _ _ _ iv2 hs2; case: (DoDec _ _ _ _) => // st3 [iv3 f3 z3]; cbn [bindR].
      have fo3 : frm o n st st3 by apply: frm_trans fo _; apply: frm_sub f3; lia.
      refine (post_frm fo3 _); apply: IQ; split=> //.
      + exact: iso_frm hs fo3.
      + lia.
      + move=> i h1 h2; case: (ltnP i.+1 (o + p + m)) => h'; first by apply: z3; lia.
        by have [_ ->] := f3; [apply: hz2; lia|lia|lia].
      + split.
        * move=> j hj; have [eD0 _] := frm_trans f2 f3; rewrite eD0; [by apply: hD; lia|lia|lia].
        * move=> p0; have [_ ->] := frm_trans f2 f3; [|lia|lia].
          by have := hp0 p0; rewrite negbK subn1 => /eqP ->; rewrite eqxx.
    refine (post_frm fo _); apply: IQ; split=> //; first exact: iso_frm hs fo.
    have [_ _ eD _] := sm.
    split=> [j hj|_ _].
      case: (ltnP j p) => hjp; first by have [eD0 _] := f2; rewrite eD0; [apply: hD|lia|lia].
      by rewrite eD; apply: hzd => //; lia.
    by rewrite eD; apply: hzd => //; lia.
  - move=> o n st iv hs; rewrite DoDecS.
    have [n0 hN _ _] := hs.
    have [sm _] := ChopP o st n0.
    have fo := same_frm o n sm.
    refine (post_frm fo _); apply: IL; split; [exact: same_Inv sm iv|exact: iso_frm hs fo|lia|].
    by move=> i h1 h2; exfalso; lia.
  - move=> o n [|q] st [iv hs hq hz]; rewrite DoLoopS; first by split.
    cbv zeta.
    case: eqP => [e0|/eqP e0].
      apply: IL; split=> //; [lia|].
      move=> i h1 h2; case: (i =P (o + q)%N) => [->//|hn]; apply: hz => //; lia.
    have [n0 hN Eo Eq] := hs.
    have Eq1 : ((o + q.+1).+1 < N)%N -> sE st (o + q.+1)%N = 0.
      move=> h; case: (ltnP (o + q.+1).+1 (o + n)) => h'; first exact: hz.
      have -> : (o + q.+1)%N = (o + n).-1 by lia.
      by apply: Eq; lia.
    case: eqP => [d0|/eqP d0].
      have := srchP (fun p => sE st (o + p - 1)%N != 0) q; set p := srch _ q; case=> hp hc hp0.
      have epq : (o + p + (q.+1 - p))%N = (o + q.+1)%N by lia.
      have := @ZeroLastColP C M N P A0 (o + p) (q.+1 - p) st; rewrite epq.
      case=> //; [lia|lia| |move=> iv1 e1 f1].
        move=> h; case: (posnP p) => [hp1|hp1].
          by rewrite hp1 addn0 in h *; exact: Eo.
        by have := hp0 hp1; rewrite negbK subn1 => /eqP.
      have fo : frm o n st (ZeroLastCol 0 P (o + p) (q.+1 - p) st) by apply: frm_sub f1; lia.
      refine (post_frm fo _); apply: IL; split=> //; [exact: iso_frm hs fo|lia|].
      move=> i h1 h2; case: (i =P (o + q)%N) => [->|hn]; first by move: e1; rewrite addnS.
      by have [_ ->] := f1; [apply: hz; lia|lia|lia].
    have := srchP (fun p => (sE st (o + p - 1)%N != 0) && (sD st (o + p)%N != 0)) q; set p := srch _ q; case=> hp hc hp0.
    have nD : forall i, (o + p < i <= o + q.+1)%N -> sD st i != 0.
      move=> i hi; case: (i =P (o + q.+1)%N) => [->//|hn].
      have -> : i = (o + (i - o))%N by lia.
      have hc1 : (p < i - o <= q)%N by lia.
      by have /andP [] := hc _ hc1.
    have fin p' st1 : (p <= p' <= q.+1)%N -> Inv st1 -> frm o n st st1 -> zs o n q.+1 st1 ->
       ((0 < o + p')%N -> sE st1 (o + p').-1 = 0) ->
       (forall i, (o + p' <= i <= o + q.+1)%N -> sD st1 i != 0) ->
       (((o + q.+1).+1 < N)%N -> sE st1 (o + q.+1)%N = 0) ->
       post o n st (bindR (if (p' < q.+1)%N then NZ f (o + p') (q.+1 - p' + 1) st1 else Done st1)
                      (fun st => DoLoop f o n p' st)).
      move=> hp' iv1 fo z1 hE1 nD1 hE2.
      have hs1 := iso_frm hs fo.
      case: ifP => hlt; last first.
        cbn [bindR]; refine (post_frm fo _); apply: IL; split=> //; [lia|].
        by have -> : p' = q.+1 by lia.
      have eo : (o + p' + (q.+1 - p' + 1))%N = (o + q.+1).+1 by lia.
      have hs2 : iso (o + p') (q.+1 - p' + 1) (sE st1).
        by split; rewrite ?eo //; lia.
      have nD2 : nzD (o + p') (q.+1 - p' + 1) st1.
        by move=> i hi; apply: nD1; lia.
      have := IN _ _ _ iv1 hs2 nD2; case: (NZ _ _ _ _) => // st2 [iv2 f2 z2]; cbn [bindR].
      have fo2 : frm o n st st2 by apply: frm_trans fo _; apply: frm_sub f2; lia.
      refine (post_frm fo2 _); apply: IL; split=> //; [exact: iso_frm hs fo2|lia|].
      move=> i h1 h2; case: (ltnP i (o + q.+1)) => h'; first by apply: z2; lia.
      by have [_ ->] := f2; [apply: z1; lia|lia|lia].
    case: eqP => [d1|/eqP d1]; last first.
      cbn [bindR]; apply: fin => //; first lia.
      + move=> h; case: (posnP p) => [hp1|hp1].
          by rewrite hp1 addn0 in h *; exact: Eo.
        by have := hp0 hp1; rewrite d1 andbT negbK subn1 => /eqP.
      + move=> i hi; case: (i =P (o + p)%N) => [->//|hn]; apply: nD; lia.
    have epq : (o + p + (q.+1 - p))%N = (o + q.+1)%N by lia.
    have := @ZeroFirstRowP C M N P A0 esz (o + p) (q.+1 - p) st; rewrite epq.
    have -> : (0 < q.+1 - p)%N by lia.
    have -> : (o + q.+1 < N)%N by lia.
    move=> /(_ isT isT iv d1 Eq1).
    case: (ZeroFirstRow _ _ _ _ _ _) => [st1 [iv1 e1 f1 n1]|[h1 h2]|//]; cbn [bindR].
      apply: fin => //; [lia|by apply: frm_sub f1; lia| |by rewrite addnS| |].
      + by move=> i h1 h2; have [_ ->] := f1; [apply: hz; lia|lia|lia].
      + by move=> i hi; apply: n1; [lia|apply: nD; lia].
      + by move=> h; have [_ ->] := f1; [apply: Eq1|lia|lia].
    by rewrite /post; lia.
  - move=> o n st iv hs nD; rewrite NZS.
    have [n0 hN _ _] := hs.
    case: ifP => hl; last by apply: dcP => //; rewrite ltnNge hl.
    have : post o n st (if (1 < n)%N then QRdec f o n (n - 1) st else Done st).
      case: ifP => h1; last by split=> // i a b; exfalso; lia.
      apply: IQ; split=> //; [lia|by move=> i a b; exfalso; lia|split=> [j hj|_ _]; apply: nD; lia].
    case: (if _ then _ else _) => // st1 [iv1 f1 z1]; cbn [bindR].
    have hs1 := iso_frm hs f1.
    have z1' : forall j, (o <= j)%N -> (j.+1 < o + n)%N -> sE st1 j = 0 by move=> j a b; apply: z1; rewrite ?addn0.
    have [iv2 f2 e2 _] := MakePosP iv1 hs1 z1'.
    by split=> //; [apply: frm_trans f1 f2|move=> i a b; rewrite e2; apply: z1].
Qed.

(** Longer runs give the same result. *)
Lemma bindR_mono (T1 T2 : Type) (r r' : run T1) (g g' : T1 -> run T2) :
  (r <> More -> r' = r) -> (forall a, g a <> More -> g' a = g a) -> bindR r g <> More -> bindR r' g' = bindR r g.
Proof. by case: r => [a| |] h1 h2; cbn [bindR] => h3; rewrite ?h1 //; cbn [bindR]; auto. Qed.
Lemma loops_mono f :
  (forall o n q st, QRdec f o n q st <> More -> QRdec f.+1 o n q st = QRdec f o n q st) /\
  (forall o n st, DoDec f o n st <> More -> DoDec f.+1 o n st = DoDec f o n st) /\
  (forall o n q st, DoLoop f o n q st <> More -> DoLoop f.+1 o n q st = DoLoop f o n q st) /\
  (forall o n st, NZ f o n st <> More -> NZ f.+1 o n st = NZ f o n st).
Proof.
  elim: f => [|f [IQ [ID [IL IN]]]]; first by do !split.
  split; [|split; [|split]].
  - move=> o n q st; rewrite (QRdecS f) (QRdecS f.+1); case: q => [|q] //.
    case: ifP => _; first exact: IQ.
    cbv zeta; case: (Chop _ _ _ _ _) => st2 [|]; last exact: IQ.
    by apply: bindR_mono => [|st3]; [exact: ID|exact: IQ].
  - move=> o n st; rewrite (DoDecS f) (DoDecS f.+1); exact: IL.
  - move=> o n q st; rewrite (DoLoopS f) (DoLoopS f.+1); case: q => [|q] //.
    case: ifP => _; first exact: IL.
    case: ifP => _; first exact: IL.
    cbv zeta; apply: bindR_mono => // st2; apply: bindR_mono => [|st3]; last exact: IL.
    case: ifP => // _; exact: IN.
  - move=> o n st; rewrite (NZS f) (NZS f.+1); case: ifP => // _.
    apply: bindR_mono => //; case: ifP => // _; exact: IQ.
Qed.
End Proofs.
