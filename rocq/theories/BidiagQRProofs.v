(** Proofs about BidiagQR.v: every step of the iteration keeps U B Vt. *)
From Coq Require Import Ring Field.
From Verif Require Import Base FMat RowPerm LUDiv RingTac Cplx Givens Claims_Givens QRProofs BidiagProofs BidiagQR.
From mathcomp Require Import all_ssreflect all_algebra zify.
Set Implicit Arguments. Unset Strict Implicit. Unset Printing Implicit Defensive.
Import GRing.Theory Num.Theory Order.Theory.
Local Open Scope ring_scope.

(** Decide or split the comparisons of indices in the goal. *)
Ltac deq := repeat match goal with
  | |- context [@eq_op ?T ?a ?b] =>
    first [ (have -> : (@eq_op T a b) = true by lia) | (have -> : (@eq_op T a b) = false by lia)
          | case: (@eqP T a b) => ? ]
  end.

Section Proofs.
Variable C : numClosedFieldType.
Add Field Cf : (mc_ft C).
Ltac mfield := mcnorm C; field.
Ltac mring := mcnorm C; ring.
Implicit Types (c s x y : C) (X U B V : fm C) (D E : fv C).

(** A plane rotation with real coefficients, as the code applies it (gvec does nothing when
    s is 0). *)
Definition grt c s : Prop := [/\ c \is Num.real, s \is Num.real, c * c + s * s = 1 & s = 0 -> c = 1].
Definition grow c s (a b : nat) B : fm C := fun i j =>
  if i == a then c * B a j + s * B b j else if i == b then c * B b j - s * B a j else B i j.
Definition gcol c s (a b : nat) B : fm C := fun i j =>
  if j == a then c * B i a + s * B i b else if j == b then c * B i b - s * B i a else B i j.

Lemma rotrowsE c s n a b X i j : grt c s -> (j < n)%N -> rotrows c s n a b X i j = grow c s a b X i j.
Proof.
  case=> hc hs h1 h0 hj; rewrite /rotrows /gvec /grow (leq_ltn_trans (leq0n _) hj) /=.
  case: (eqVneq s 0) => [e|_] /=.
    by rewrite e (h0 e) !mul0r !mul1r addr0 subr0; case: eqP => _ //; case: eqP => _.
  by case: eqP => [_|_] /=; [|case: eqP => _ /=]; rewrite ?hj //= (CrealP hs).
Qed.
Lemma rotrows_out c s n a b X i j : (n <= j)%N -> rotrows c s n a b X i j = X i j.
Proof.
  move=> hj; rewrite /rotrows /gvec.
  have hj' : (j < n)%N = false by lia.
  by case: (_ && _) => /=; deq; rewrite /= ?hj' //; congr (X _ _); lia.
Qed.
Lemma rotcolsE c s n a b X i j : grt c s -> (i < n)%N -> rotcols c s n a b X i j = gcol c s a b X i j.
Proof. by move=> g hi; rewrite /rotcols /trm rotrowsE. Qed.

Section Dims.
Variables M N P : nat.

Definition Rm c s (a b : nat) : 'M[C]_N := \matrix_(i, j) grow c s a b (fun i j => (i == j)%:R) i j.
Lemma RmE K c s a b (X : fm C) : (a < N)%N -> (b < N)%N -> a != b ->
  Rm c s a b *m mx N K X = mx N K (grow c s a b X).
Proof.
  move=> ha hb hab; apply/matrixP => i j; rewrite !mxE.
  have dl (k : nat) (hk : (k < N)%N) : \sum_(l < N) (k == l)%:R * X l j = X k j.
    rewrite (bigD1 (Ordinal hk)) //= eqxx mul1r big1 ?addr0 // => l hl.
    by rewrite (_ : (k == l) = false) ?mul0r //; apply/eqP => e; case/eqP: hl; apply: val_inj.
  rewrite /grow (eq_bigr (fun l : 'I_N => if (i == a :> nat) then c * ((a == l)%:R * X l j) + s * ((b == l)%:R * X l j)
    else if (i == b :> nat) then c * ((b == l)%:R * X l j) - s * ((a == l)%:R * X l j) else (i == l :> nat)%:R * X l j)).
    case: eqP => _; [|case: eqP => _; last exact: dl].
      by rewrite big_split /= -!mulr_sumr !dl.
    by rewrite sumrB /= -!mulr_sumr !dl.
  by move=> l _; rewrite !mxE /grow; case: eqP => _; [mring|case: eqP => _ //; mring].
Qed.
Lemma RmT c s a b : a != b -> (Rm c s a b)^T = Rm c (- s) a b.
Proof.
  move=> hab; apply/matrixP => i j; rewrite !mxE /grow.
  by deq; rewrite ?mulr0 ?mulr1 ?addr0 ?add0r ?subr0 ?sub0r ?oppr0 ?mulNr ?opprK.
Qed.
Lemma Rm_ctr c s a b : c \is Num.real -> s \is Num.real -> ctr (Rm c s a b) = (Rm c s a b)^T.
Proof.
  move=> hc hs; apply/matrixP => i j; rewrite !mxE; apply: CrealP; rewrite /grow.
  have br (t : bool) : (t%:R : C) \is Num.real by exact: realn.
  by case: ifP => _; [rewrite rpredD ?rpredM|case: ifP => _; rewrite ?rpredB ?rpredM].
Qed.
Lemma Rm_unit c s a b : (a < N)%N -> (b < N)%N -> a != b -> grt c s -> Rm c s a b *m (Rm c s a b)^T = 1%:M.
Proof.
  move=> ha hb hab [hc hs h1 _]; rewrite RmT //.
  have -> : Rm c (- s) a b = mx N N (grow c (- s) a b (fun i j => (i == j)%:R)) by [].
  rewrite RmE //; apply/matrixP => i j; rewrite !mxE.
  rewrite -[i == j]/(nat_of_ord i == nat_of_ord j) /grow.
  by deq; rewrite /=; first [mring | (transitivity (c * c + s * s); [mring|exact: h1]) | (exfalso; lia)].
Qed.

Variable A0 : 'M[C]_(M, P).
Definition inv U B V : Prop :=
  [/\ ctr (mx M N U) *m mx M N U = 1%:M, mx N P V *m ctr (mx N P V) = 1%:M &
      mx M N U *m mx N N B *m mx N P V = A0].

Lemma inv_ext U B B' V : inv U B V -> (forall i j, (i < N)%N -> (j < N)%N -> B i j = B' i j) -> inv U B' V.
Proof. by case=> h1 h2 h3 h; split=> //; rewrite -h3; congr (_ *m _ *m _); apply/matrixP => i j; rewrite !mxE h. Qed.

Lemma inv_left U B V c s a b : (a < N)%N -> (b < N)%N -> a != b -> grt c s ->
  inv U B V -> inv (rotcols c s M a b U) (grow c s a b B) V.
Proof.
  move=> ha hb hab g [h1 h2 h3]; have R1 := Rm_unit ha hb hab g; set R := Rm c s a b in R1.
  have R2 := mulmx1C R1.
  have eU : mx M N (rotcols c s M a b U) = mx M N U *m R^T.
    rewrite -[mx M N U]trmxK -trmx_mul; apply/matrixP => i j.
    have -> : (mx M N U)^T = mx N M (trm U) by apply/matrixP => k l; rewrite !mxE.
    by rewrite RmE // !mxE rotcolsE.
  have cR : ctr R^T = R.
    have e : ctr R = R^T by case: g => hc hs _ _; apply: Rm_ctr.
    by rewrite -e ctrK.
  split=> //; first by rewrite eU ctrM cR mulmxA -[_ *m ctr _ *m _]mulmxA h1 mulmx1.
  by rewrite eU -RmE // -/R mulmxA -[_ *m R^T *m R]mulmxA R2 mulmx1.
Qed.
Lemma inv_right U B V c s a b : (a < N)%N -> (b < N)%N -> a != b -> grt c s ->
  inv U B V -> inv U (gcol c s a b B) (rotrows c s P a b V).
Proof.
  move=> ha hb hab g [h1 h2 h3]; have R1 := Rm_unit ha hb hab g; set R := Rm c s a b in R1.
  have R2 := mulmx1C R1.
  have eV : mx N P (rotrows c s P a b V) = R *m mx N P V.
    by rewrite RmE //; apply/matrixP => i j; rewrite !mxE rotrowsE.
  have eB : mx N N (gcol c s a b B) = mx N N B *m R^T.
    rewrite -[mx N N B]trmxK -trmx_mul; apply/matrixP => i j.
    have -> : (mx N N B)^T = mx N N (trm B) by apply/matrixP => k l; rewrite !mxE.
    by rewrite RmE // !mxE.
  have cR : ctr R = R^T by case: g => hc hs _ _; apply: Rm_ctr.
  split=> //; first by rewrite eV ctrM cR mulmxA -[R *m _ *m _]mulmxA h2 mulmx1.
  by rewrite eV eB !mulmxA -[_ *m R^T *m R]mulmxA R2 mulmx1.
Qed.

(** Rotations from GivensRotate. *)
Lemma grot_grt x y : x \is Num.real -> y \is Num.real ->
  let r := grot 0 x y in
  [/\ grt (r_c r) (r_s r), r_x r \is Num.real, r_y r = 0,
      r_x r = r_c r * x + r_s r * y & r_c r * y - r_s r * x = 0].
Proof.
  move=> hx hy r; have [hc [hs hrx]] := C32_rotate_real (lexx (0 : C)) hx hy; rewrite -/r in hc hs hrx.
  have [[_ h1] [h2 h3]] := C32_rotate_exact x y; rewrite -/r in h1 h2 h3.
  have [_ c0 _ _ _] := grot_sound x y (lexx (0 : C)); rewrite -/r in c0.
  move: h3; rewrite /gmult /= (CrealP hs) h2 => -[e1 e2].
  have h1' : r_c r * r_c r + r_s r * r_s r = 1.
    by move: h1; rewrite /rot /= expr2 normCK (CrealP hs).
  split=> //; split=> // e; move: h1'; rewrite e mulr0 addr0 -expr2 => /eqP.
  by rewrite sqrf_eq1 => /orP [/eqP //|/eqP e']; move: c0; rewrite e' oppr_ge0 ler10.
Qed.
Lemma grot_nz x y : x \is Num.real -> y \is Num.real -> x != 0 -> r_x (grot 0 x y) != 0.
Proof.
  move=> hx hy nx; have [[hc hs h1 _] _ _ e1 e2] := grot_grt hx hy.
  set c := r_c _ in hc h1 e1 e2; set s := r_s _ in hs h1 e1 e2; rewrite e1.
  apply/eqP => e; case/eqP: nx.
  have -> : x = (c * c + s * s) * x by rewrite h1 mul1r.
  have -> : (c * c + s * s) * x = c * (c * x + s * y) - s * (c * y - s * x) by mring.
  by rewrite e e2 !mulr0 subr0.
Qed.

(** A bidiagonal matrix with one more element. *)
Definition bl D E x (a b : nat) : fm C := fun i j => if (i == a) && (j == b) then x else bidi D E i j.
Ltac bmat := rewrite /grow /gcol /bl /bidi /updv; deq; rewrite /=;
  repeat match goal with e : S _ = S _ |- _ => case: e => e end; subst.

(** Zeroing the row p, where D p = 0: the bulge moves from (p,d) to (p,d+1). *)
Lemma zfr_stepP U D E V x p d c s : (p < d < N)%N -> D p = 0 -> E p = 0 -> grt c s ->
  c * x - s * D d = 0 -> inv U (bl D E x p d) V ->
  inv (rotcols c s M d p U) (bl (updv D d (c * D d + s * x)) (updv E d (c * E d)) (- (s * E d)) p d.+1) V.
Proof.
  move=> hp Dp Ep g hx h; have hdp : d != p by lia.
  have hp1 : (p < N)%N by lia.
  have hd1 : (d < N)%N by lia.
  apply: inv_ext (inv_left hd1 hp1 hdp g h) _ => i j hi hj.
  by bmat; rewrite ?Dp ?Ep; first [by [] | by exfalso; lia | mring | (etransitivity; [|exact: hx]; mring)].
Qed.
(** Zeroing the column q, where D q = 0: the bulge moves from (k,q) to (k-1,q). *)
Lemma zlc_stepP U D E V x k q c s : (k < q < N)%N -> D q = 0 -> E q.-1 = 0 -> grt c s ->
  c * x - s * D k = 0 -> (0 < k)%N -> inv U (bl D E x k q) V ->
  inv U (bl (updv D k (c * D k + s * x)) (updv E k.-1 (c * E k.-1)) (- (s * E k.-1)) k.-1 q)
      (rotrows c s P k q V).
Proof.
  move=> hp Dq Eq g hx k0 h; have hkq : k != q by lia.
  have hk : (k < N)%N by lia.
  have hq : (q < N)%N by lia.
  apply: inv_ext (inv_right hk hq hkq g h) _ => i j hi hj.
  case: k k0 hp hx h hkq hk => [//|k] _ hp hx h hkq hk; case: q Dq Eq hp h hkq hq => [//|q] /= Dq Eq hp h hkq hq.
  by bmat; rewrite ?Dq ?Eq; first [by [] | by exfalso; lia | mring | (etransitivity; [|exact: hx]; mring)].
Qed.
Lemma zlc_lastP U D E V x k q c s : (k < q < N)%N -> D q = 0 -> E q.-1 = 0 -> grt c s ->
  c * x - s * D k = 0 -> ((0 < k)%N -> E k.-1 = 0) -> inv U (bl D E x k q) V ->
  inv U (bidi (updv D k (c * D k + s * x)) E) (rotrows c s P k q V).
Proof.
  move=> hp Dq Eq g hx k0 h; have hkq : k != q by lia.
  have hk : (k < N)%N by lia.
  have hq : (q < N)%N by lia.
  apply: inv_ext (inv_right hk hq hkq g h) _ => i j hi hj.
  case: q Dq Eq hp h hkq hq => [//|q] /= Dq Eq hp h hkq hq.
  have k0' i' : i'.+1 = k -> E i' = 0 by move=> e; subst; apply: k0.
  by bmat; rewrite ?Dq ?Eq; try rewrite (k0' _ erefl); first [by [] | by exfalso; lia | mring | (etransitivity; [|exact: hx]; mring)].
Qed.

(** What holds between the steps, and what a step on the n rows from o on leaves alone. *)
Implicit Types st : bst C.
Definition reals D E : Prop :=
  (forall i, (i < N)%N -> D i \is Num.real) /\ (forall i, (i.+1 < N)%N -> E i \is Num.real).
Definition Inv st : Prop := inv (sU st) (bidi (sD st) (sE st)) (sV st) /\ reals (sD st) (sE st).
Definition frm (o n : nat) st st' : Prop :=
  (forall i, (i < N)%N -> ~~ (o <= i < o + n)%N -> sD st' i = sD st i) /\
  (forall i, (i.+1 < N)%N -> ~~ ((o <= i) && (i.+1 < o + n))%N -> sE st' i = sE st i).
Definition iso (o n : nat) E : Prop :=
  [/\ (0 < n)%N, (o + n <= N)%N, (0 < o)%N -> E o.-1 = 0 & (o + n < N)%N -> E (o + n).-1 = 0].

Variable esz : nat.
Lemma foldl_iotaS (T : Type) (f : T -> nat -> T) z n : foldl f z (iota 0 n.+1) = f (foldl f z (iota 0 n)) n.
Proof. by rewrite -addn1 iotaD foldl_cat. Qed.

Record zfi (D0 E0 : fv C) (p k : nat) st x : Prop := Zfi {
  z_inv : inv (sU st) (bl (sD st) (sE st) x p (p + 1 + k)) (sV st);
  z_p : sD st p = 0 /\ sE st p = 0;
  z_D : forall i, (i < N)%N -> ~~ (p < i <= p + k)%N -> sD st i = D0 i;
  z_E : forall i, ~~ (p <= i <= p + k)%N -> sE st i = E0 i;
  z_r : reals (sD st) (sE st);
  z_x : (p + 1 + k < N)%N -> x \is Num.real;
  z_0 : (0 < k)%N -> E0 (p + k)%N = 0 -> x = 0 /\ sE st (p + k)%N = 0;
  z_nz : forall i, (p < i <= p + k)%N -> D0 i != 0 -> sD st i != 0 }.

Lemma ZeroFirstRowP p n st : (0 < n)%N -> (p + n < N)%N -> Inv st -> sD st p = 0 ->
  (((p + n).+1 < N)%N -> sE st (p + n)%N = 0) ->
  match ZeroFirstRow 0 M esz p n st with
  | Done st' => [/\ Inv st', sE st' p = 0, frm p n.+1 st st' &
      forall i, (p < i <= p + n)%N -> sD st i != 0 -> sD st' i != 0]
  | Outside => (esz <= p + n)%N /\ sE st p != 0
  | More => False
  end.
Proof.
  move=> n0 hn [hi hr] Dp En; rewrite /ZeroFirstRow; case: (eqVneq (sE st p) 0) => [e|ne].
    by split=> //; split.
  set st0 := St _ _ _ _.
  suff H k : (k <= n)%N ->
    match foldl (fun r i => zfr_step 0 M esz p n i r) (Done (st0, sE st p)) (iota 0 k) with
    | Done sx => zfi (sD st) (sE st) p k sx.1 sx.2
    | Outside => (esz <= p + n)%N
    | More => False
    end.
    have := H n (leqnn n); case: foldl => [[st' x] /= [h1 [h2 h2'] h3 h4 h5 h6 h7 h8]| |] //=.
    split=> //.
    - split=> //; case: (ltnP (p + n).+1 N) => hN.
        have [x0 e0] := h7 n0 (En hN); apply: inv_ext h1 _ => i j hi' hj'; rewrite /bl.
        by case: andP => // -[/eqP -> /eqP ->]; rewrite x0 /bidi; deq.
      apply: inv_ext h1 _ => i j hi' hj'; rewrite /bl.
      by rewrite (_ : (j == p + 1 + n)%N = false) ?andbF //; lia.
    - split=> i hi' hi2; first by apply: h3 => //; lia.
      case: (eqVneq i (p + n)%N) => [e|ne']; last by apply: h4; lia.
      by rewrite e; rewrite e in hi'; rewrite En //; case: (h7 n0 (En hi')).
  elim: k => [_|k IH hk].
    rewrite /=; split=> //=.
    - apply: inv_ext hi _ => i j hi' hj'; rewrite /bl /bidi /updv; deq; rewrite /=; subst=> //.
      all: try by exfalso; lia.
    - by rewrite /updv eqxx.
    - by move=> i hi'; rewrite /updv; deq.
    - case: hr => r1 r2; split=> // i hi'; rewrite /updv; case: eqP => _; [exact: real0|exact: r2].
    - by case: hr => _ r2 h; apply: r2; lia.
  rewrite foldl_iotaS; have := IH (ltnW hk); case: foldl => [[st' x] /= [h1 [h2 h2'] h3 h4 h5 h6 h7 h8]| |] //=.
  have hd : (p + 1 + k < N)%N by lia.
  have [r1 r2] := h5; have [g gx gy ex e0] := grot_grt (r1 _ hd) (h6 hd).
  set r := grot _ _ _ in g gx gy ex e0 *; rewrite hk gy !mulr0 addr0 sub0r.
  case: ltnP => he /=; last by lia.
  have gs : (r_s r)^* = r_s r by case: g => _ hs _ _; exact: CrealP.
  have gr : r_c r \is Num.real /\ r_s r \is Num.real by case: g.
  have hd' : (p < p + 1 + k < N)%N by lia.
  have := zfr_stepP hd' h2 h2' g e0 h1; rewrite -ex => h.
  have eEd : sE st' (p + 1 + k)%N = sE st (p + 1 + k)%N by apply: h4; lia.
  rewrite gs; split=> /=.
  - by rewrite (addnS (p + 1) k).
  - by rewrite /updv; deq.
  - by move=> i iN hi'; rewrite /updv; deq; try (by exfalso; lia); apply: h3 => //; lia.
  - by move=> i hi'; rewrite /updv; deq; try (by exfalso; lia); apply: h4 => //; lia.
  - split=> i hi'; rewrite /updv; case: eqP => [e|_]; rewrite ?r1 ?r2 //.
    by rewrite rpredM // ?r2 -?e //; case: gr.
  - by move=> hi'; rewrite rpredN rpredM //; [case: gr|apply: r2; lia].
  - move=> _; have -> : (p + k.+1 = p + 1 + k)%N by lia.
    by move=> z; rewrite /updv eqxx eEd z !mulr0 oppr0.
  - move=> i hi' nz; rewrite /updv; case: (i =P (p + 1 + k)%N) => [e|ne']; last by apply: h8 => //; lia.
    rewrite /r; apply: grot_nz; rewrite ?r1 ?h6 //.
    by rewrite -e h3 //; lia.
Qed.

Lemma zlc_loop (D0 E0 : fv C) p n k st x : (k <= n)%N -> (0 < k)%N -> (p + n < N)%N ->
  ((0 < p)%N -> E0 p.-1 = 0) ->
  inv (sU st) (bl (sD st) (sE st) x (p + k).-1 (p + n)) (sV st) ->
  sD st (p + n)%N = 0 -> sE st (p + n).-1 = 0 -> reals (sD st) (sE st) -> x \is Num.real ->
  (forall i, ~~ (p <= i < p + n)%N -> sD st i = D0 i) ->
  (forall i, ~~ (p <= i < p + n)%N -> sE st i = E0 i) ->
  let st' := (foldl (fun sx i => zlc_step 0 P p n i sx) (st, x) (rev (iota 0 k))).1 in
  [/\ inv (sU st') (bidi (sD st') (sE st')) (sV st'), sE st' (p + n).-1 = 0, reals (sD st') (sE st'),
      (forall i, ~~ (p <= i < p + n)%N -> sD st' i = D0 i) &
      (forall i, ~~ (p <= i < p + n)%N -> sE st' i = E0 i)].
Proof.
  elim: k st x => [//|k IH] st x hk _ hn Ep h1 h2 h3 [r1 r2] hx fD fE.
  rewrite -addn1 iotaD rev_cat /= add0n.
  have e : (p + k.+1).-1 = (p + k)%N by rewrite addnS.
  rewrite e in h1; have hd : (p + k < N)%N by lia.
  have [g gx gy ex e0] := grot_grt (r1 _ hd) hx; set r := grot _ _ _ in g gx gy ex e0 *.
  have gs : (r_s r)^* = r_s r by case: g => _ hs _ _; exact: CrealP.
  have [gr1 gr2] : r_c r \is Num.real /\ r_s r \is Num.real by case: g.
  have hq : (p + k < p + n < N)%N by lia.
  rewrite gy !mulr0 addr0 sub0r gs; case: (posnP k) => [k0|k0].
    rewrite k0 /= -k0; have := zlc_lastP hq h2 h3 g e0; rewrite -ex => h; split=> //.
    - apply: h h1 => hpk; rewrite k0 addn0 in hpk *; rewrite fE; [exact: Ep|lia].
    - by split=> // i hi; rewrite /updv; case: eqP => // _; exact: r1.
    - by move=> i hi; rewrite /updv; deq; try (by exfalso; lia); exact: fD.
  have pk : (0 < p + k)%N by lia.
  have := zlc_stepP hq h2 h3 g e0 pk h1; rewrite -ex => h.
  have e1 : (p + k - 1)%N = (p + k).-1 by rewrite subn1.
  rewrite e1; apply: IH => //=; first lia.
  - by rewrite /updv; deq.
  - by rewrite /updv; deq.
  - split=> i hi; rewrite /updv; case: eqP => [ei|_]; rewrite ?r1 ?r2 //.
    by rewrite rpredM // r2 -?ei.
  - by rewrite rpredN rpredM // r2 //; lia.
  - by move=> i hi; rewrite /updv; deq; try (by exfalso; lia); apply: fD.
  - by move=> i hi; rewrite /updv; deq; try (by exfalso; lia); apply: fE.
Qed.
Lemma ZeroLastColP p n st : (0 < n)%N -> (p + n < N)%N -> Inv st -> sD st (p + n)%N = 0 ->
  ((0 < p)%N -> sE st p.-1 = 0) ->
  let st' := ZeroLastCol 0 P p n st in
  [/\ Inv st', sE st' (p + n).-1 = 0 & frm p n.+1 st st'].
Proof.
  move=> n0 hn [hi [r1 r2]] Dq Ep; rewrite /ZeroLastCol.
  have e1 : (p + n - 1)%N = (p + n).-1 by rewrite subn1.
  rewrite e1; case: (eqVneq (sE st (p + n).-1) 0) => [e|ne]; first by split=> //; split.
  set st0 := St _ _ _ _.
  have [] := @zlc_loop (sD st) (sE st) p n n st0 (sE st (p + n).-1) (leqnn n) n0 hn Ep; rewrite /st0 //=.
  - apply: inv_ext hi _ => i j hi' hj'; rewrite /bl /bidi /updv.
    by deq; rewrite /=; subst=> //; try (by exfalso; lia); congr (sE st _); lia.
  - by rewrite /updv eqxx.
  - by split=> // i hi'; rewrite /updv; case: eqP => _; [exact: real0|exact: r2].
  - by apply: r2; lia.
  - by move=> i hi'; rewrite /updv; deq; try (by exfalso; lia).
  set st' := _.1 => h1 h2 h3 h4 h5; split=> //.
  by split=> i hi' hi2; [case: (eqVneq i (p + n)%N) => [->|ne']|]; apply: h4 || apply: h5; lia.
Qed.

(** The steps of the implicit QR sweep: a rotation of the columns k, k+1 makes a bulge below
    the diagonal, one of the rows k, k+1 moves it above. *)
Lemma swcol0 U D E V k c s : (k.+1 < N)%N -> ((0 < k)%N -> E k.-1 = 0) -> grt c s -> inv U (bidi D E) V ->
  inv U (bl (updv (updv D k (c * D k + s * E k)) k.+1 (c * D k.+1)) (updv E k (c * E k - s * D k)) (s * D k.+1) k.+1 k)
      (rotrows c s P k k.+1 V).
Proof.
  move=> hk Ek g h; have hk1 : (k < N)%N by lia.
  have hkk : k != k.+1 by lia.
  apply: inv_ext (inv_right hk1 hk hkk g h) _ => i j hi hj.
  have k0' i' : i'.+1 = k -> E i' = 0 by move=> e; subst; apply: Ek.
  by bmat; try rewrite (k0' _ erefl); first [by [] | by exfalso; lia | mring].
Qed.
Lemma swcol1 U D E V k c s e0 x0 : (0 < k)%N -> (k.+1 < N)%N -> c * x0 - s * e0 = 0 -> grt c s ->
  inv U (bl D (updv E k.-1 e0) x0 k.-1 k.+1) V ->
  inv U (bl (updv (updv D k (c * D k + s * E k)) k.+1 (c * D k.+1))
            (updv (updv E k (c * E k - s * D k)) k.-1 (c * e0 + s * x0)) (s * D k.+1) k.+1 k)
      (rotrows c s P k k.+1 V).
Proof.
  move=> k0 hk hx g h; have hk1 : (k < N)%N by lia.
  have hkk : k != k.+1 by lia.
  apply: inv_ext (inv_right hk1 hk hkk g h) _ => i j hi hj.
  case: k k0 hk hk1 hkk h => [//|k] _ /= hk hk1 hkk h.
  by bmat; first [by [] | by exfalso; lia | mring | (etransitivity; [|exact: hx]; mring)].
Qed.
Lemma swrow U D E V y k c s : (k.+1 < N)%N -> c * y - s * D k = 0 -> grt c s ->
  inv U (bl D E y k.+1 k) V ->
  inv (rotcols c s M k k.+1 U) (bl (updv (updv D k (c * D k + s * y)) k.+1 (c * D k.+1 - s * E k))
        (updv (updv E k (c * E k + s * D k.+1)) k.+1 (c * E k.+1)) (s * E k.+1) k k.+2) V.
Proof.
  move=> hk hx g h; have hk1 : (k < N)%N by lia.
  have hkk : k != k.+1 by lia.
  apply: inv_ext (inv_left hk1 hk hkk g h) _ => i j hi hj.
  by bmat; first [by [] | by exfalso; lia | mring | (etransitivity; [|exact: hx]; mring)].
Qed.
Lemma swrow_last U D E V y k c s : (k.+1 < N)%N -> c * y - s * D k = 0 -> grt c s ->
  ((k.+2 < N)%N -> E k.+1 = 0) -> inv U (bl D E y k.+1 k) V ->
  inv (rotcols c s M k k.+1 U) (bidi (updv (updv D k (c * D k + s * y)) k.+1 (c * D k.+1 - s * E k))
        (updv E k (c * E k + s * D k.+1))) V.
Proof.
  move=> hk hx g Ek h; apply: inv_ext (swrow hk hx g h) _ => i j hi hj; bmat; try by [].
  all: try by exfalso; lia.
    by rewrite Ek ?mulr0.
  have -> : i = k.+1 by lia.
  by rewrite Ek ?mulr0.
Qed.
End Dims.
End Proofs.
