(** Proofs about HermBandCHDiv: the object made, division, inverse and determinant. *)
From Coq Require Import Ring Field.
From Verif Require Import Base FMat TriSolve TriInv RingTac LUDiv Cplx Chol CholDiv LDL LDLProofs LDLInv BandTri BandLUDiv Claims_BandLU BandCH BandCHProofs BandLDLProofs.
From mathcomp Require Import all_ssreflect all_fingroup all_algebra zify.
Set Implicit Arguments. Unset Strict Implicit. Unset Printing Implicit Defensive.
Import GRing.Theory Num.Theory Order.Theory.
Local Open Scope ring_scope.

Section Proofs.
Variable C : numClosedFieldType.
Add Field Cf4 : (mc_ft C).
Ltac mfield := mcnorm C; field.
Ltac mring := mcnorm C; ring.
Implicit Types (A m raw LL S : fm C).

(** ** SimpleLDLt_CombineInverse *)
Definition xdx (n : nat) (X : fm C) (D : fv C) (i j : nat) : C := \sum_(0 <= k < n) (X k i)^* * (D k * X k j).
Lemma xdx_split n p X D i j : (p <= n)%N -> xdx n X D i j = xdx p X D i j + xdx (n - p) (subm p 0 X) (subv p D) i j.
Proof.
  move=> Hp; rewrite /xdx (@big_cat_nat _ _ _ p) //=; congr (_ + _).
  rewrite -{1}[p]add0n big_addn; apply: eq_big_nat => k _; rewrite /subm /subv !add0n; by rewrite addnC.
Qed.
Lemma xdx_ext n X D X' D' i j i' j' : (forall k, (k < n)%N -> D k = D' k) ->
  (forall k, (k < n)%N -> X k i = X' k i') -> (forall k, (k < n)%N -> X k j = X' k j') ->
  xdx n X D i j = xdx n X' D' i' j'.
Proof. by move=> h1 h2 h3; apply: eq_big_nat => k Hk; rewrite h1 ?h2 ?h3 //; lia. Qed.
Lemma xdx0 n X D i j : (forall k, (k < n)%N -> X k i = 0) -> xdx n X D i j = 0.
Proof. by move=> h; rewrite /xdx big1_seq // => k; rewrite mem_index_iota /= => Hk; rewrite h // conjC0 mul0r. Qed.

Lemma SAddXtDXP fuel n N X D B : (0 < N)%N -> (N <= fuel)%N ->
  exists R, SAddXtDX fuel n N X D B = Ok R /\
    forall i j, R i j = if (i < n)%N && (j <= i)%N then B i j + xdx N X D i j else B i j.
Proof.
  elim: fuel N X D B => [|f IH] N X D B HN Hf; first by lia.
  rewrite /SAddXtDX -/(@SAddXtDX C); case: eqP => [E|HN1].
    eexists; split; first by []. move=> i j /=; case: ifP => // _; congr (_ + _).
    by rewrite E /xdx big_nat1 mulrA [D _ * _]mulrC.
  have [p0 pN] : (0 < N %/ 2)%N /\ (N %/ 2 < N)%N by split; lia.
  move: (N %/ 2)%N p0 pN => p p0 pN.
  have [B1 [-> e1]] := IH p X D B p0 ltac:(lia); rewrite /bindO.
  have [B2 [-> e2]] := IH (N - p)%N (subm p 0 X) (subv p D) B1 ltac:(lia) ltac:(lia).
  exists B2; split=> // i j; rewrite e2 !e1; case: (_ && _) => //.
  by rewrite -addrA -xdx_split // ltnW.
Qed.

Notation dg S := (fun k : nat => S k k).
Lemma SCombineP fuel N S : (N < fuel)%N ->
  exists R, SCombine fuel N S = Ok R /\
    forall i j, R i j = if (i < N)%N && (j <= i)%N then xdx N (lower true S) (dg S) i j else S i j.
Proof.
  elim: fuel N S => [|f IH] N S Hf //.
  rewrite /SCombine -/(@SCombine C); case: ifP => HN1.
    exists S; split=> // i j; case: ifP => // hij.
    have [E1 [-> ->]] : N = 1%N /\ i = 0%N /\ j = 0%N by lia.
    by rewrite E1 /xdx big_nat1 /lower /= conjC1 mul1r mulr1.
  have [p0 pN] : (0 < N %/ 2)%N /\ (N %/ 2 < N)%N by split; lia.
  move: (N %/ 2)%N p0 pN => p p0 pN.
  have [S1 [-> e1]] := IH p S ltac:(lia); rewrite /bindO.
  set D : fv C := fun i => S1 (p + i)%N (p + i)%N.
  have S1o i j : (p <= i)%N -> S1 i j = S i j by move=> Hi; rewrite e1 ifN //; lia.
  have DE k : D k = S (p + k)%N (p + k)%N by rewrite /D S1o //; lia.
  have [S2 [-> e2]] := @SAddXtDXP N p (N - p) (subm p 0 S1) D S1 ltac:(lia) ltac:(lia).
  have S2o i j : (p <= i)%N -> S2 i j = S i j by move=> Hi; rewrite e2 ifN ?S1o //; lia.
  set S3 := putm p 0 (N - p) p S2 _.
  have S33 i j : (p <= i)%N -> (p <= j)%N -> S3 i j = S i j.
    by move=> Hi Hj; rewrite /S3 /putm ifN ?S2o //; lia.
  set S4 := putm p 0 (N - p) p S3 _.
  have S44 i j : (p <= i)%N -> (p <= j)%N -> S4 i j = S i j.
    by move=> Hi Hj; rewrite /S4 /putm ifN ?S33 //; lia.
  have [T [-> e3]] := IH (N - p)%N (subm p p S4) ltac:(lia).
  eexists; split; first by []. move=> i j.
  have xs := @xdx_split N p (lower true S) (dg S) i j (ltnW pN).
  rewrite {1}/putm; case: (boolP (_ && _)) => hT.
    rewrite e3; have -> : ((i - p < N - p) && (j - p <= i - p))%N = ((i < N) && (j <= i))%N by lia.
    case: ifP => hij; last by rewrite /subm S44 ?subnKC //; lia.
    rewrite xs (@xdx0 p); last by move=> k Hk; apply: low_up; lia.
    rewrite add0r; apply: xdx_ext => k Hk.
    - by rewrite /subv /subm S44 //; lia.
    - by rewrite /subm; apply: (@low_sub C) => [|a b]; [lia | rewrite S44 //; lia].
    - by rewrite /subm; apply: (@low_sub C) => [|a b]; [lia | rewrite S44 //; lia].
  have xl k l : (l < p)%N -> lower true S (p + k)%N l = S (p + k)%N l by move=> Hl; apply: low_lo; lia.
  rewrite /S4 /putm; case: (boolP (_ && _)) => hX.
    rewrite ifT; last by lia.
    rewrite xs (@xdx0 p); last by move=> k Hk; apply: low_up; lia.
    rewrite add0r /xdx; apply: eq_big_nat => k Hk; congr (_ ^* * _).
      by rewrite /subm; apply: (@low_sub C) => [|a b]; [lia | rewrite S33 //; lia].
    rewrite /S3 /putm ifT; last by lia.
    by rewrite !addKn !subn0 S1o ?S2o /subm /subv ?add0n ?xl //; lia.
  rewrite /S3 /putm (negPf hX) e2 e1; case: (ltnP i p) => Hip /=; last by rewrite ifN //; lia.
  rewrite (ltn_trans Hip pN) /=; case: (leqP j i) => Hji //; rewrite xs; congr (_ + _).
  by apply: xdx_ext => k Hk; rewrite ?DE /subm /subv ?S1o ?xl //; lia.
Qed.

(** ** The facts a decomposition leaves *)
Definition bchfacts (cj : bool) (N nlo : nat) (H : fm C) LL : Prop :=
  mx N N (BCHDiv_getL cj nlo LL) *m mx N N (BCHDiv_getD cj nlo LL) *m adj (mx N N (BCHDiv_getL cj nlo LL)) = mx N N H /\
  forall i, (i < N)%N -> LL i i \is Num.real /\ LL i i != 0.

Lemma hermview_symview upper cj raw i j : hermview upper cj raw i j = symview true upper cj raw i j.
Proof. by []. Qed.

Lemma getD_diag cj N nlo LL : mx N N (BCHDiv_getD cj nlo LL) = diagm N (BCHDiv_getD cj nlo LL).
Proof. by apply/matrixP => i j; rewrite !mxE /BCHDiv_getD -[(i == j :> 'I_N)]val_eqE /=; case: (i == j :> nat). Qed.

Section Use.
Variables (cj : bool) (N nlo : nat) (H LL : fm C).
Hypothesis HN : (nlo < N)%N.
Hypothesis HF : bchfacts cj N nlo H LL.
Variables (nb : nat) (stA stB : stor) (isrm iscm isdm : bool).
Hypothesis nbP : (0 < nb)%N.

Lemma LLr i : (i < N)%N -> velt cj LL i i = LL i i.
Proof. by move=> Hi; rewrite /velt; case: cj => //; apply: realcj; case: (HF.2 i Hi). Qed.

(* nlo > 1 *)
Lemma lowL : (1 < nlo)%N -> mx N N (band_of nlo 0 (lowerTri false cj LL)) = mx N N (BCHDiv_getL cj nlo LL).
Proof.
  move=> h; apply: mx_ext => i j _ _; rewrite /band_of /BCHDiv_getL /lowerTri [(nlo <= 1)%N]leqNgt h /= addn0.
  by case: ifP => g; case: ifP => //; lia.
Qed.
Lemma uppL : (1 < nlo)%N -> mx N N (band_of 0 nlo (upperTri false cj LL)) = adj (mx N N (BCHDiv_getL cj nlo LL)).
Proof.
  move=> h; apply/matrixP => i j; rewrite !mxE /band_of /BCHDiv_getL /upperTri [(nlo <= 1)%N]leqNgt h /= addn0.
  by case: ifP => g; rewrite ?rmorph0.
Qed.
Lemma D1 : (1 < nlo)%N -> mx N N (BCHDiv_getD cj nlo LL) = 1%:M.
Proof. by move=> h; apply/matrixP => i j; rewrite !mxE /BCHDiv_getD -val_eqE [(nlo <= 1)%N]leqNgt h /=; case: eqP. Qed.
Lemma vnz i : (i < N)%N -> velt cj LL i i != 0.
Proof. by move=> Hi; rewrite LLr //; case: (HF.2 i Hi). Qed.

Lemma BCH_LDivEqP K m : (1 < nlo)%N -> exists X, [/\ BCH_LDivEq stA stB isrm iscm isdm cj N nlo K LL m = Ok X,
  mx N N H *m mx N K X = mx N K m & forall i j, ~~ ((i < N)%N && (j < K)%N) -> X i j = m i j].
Proof.
  move=> h; rewrite /BCH_LDivEq.
  have [Y [-> e1 f1]] := @bandLDivEqP C stA stB isrm iscm isdm N nlo 0 K (lowerTri false cj LL) m HN ltac:(lia)
    (@det_bandL C N nlo (lowerTri false cj LL) vnz).
  rewrite /bindO.
  have [X [-> e2 f2]] := @bandLDivEqP C stA stB isrm iscm isdm N 0 nlo K (upperTri false cj LL) Y ltac:(lia) HN
    (@det_bandU C N nlo (upperTri false cj LL) ltac:(by move=> i Hi; rewrite /upperTri conjC_eq0; exact: vnz)).
  exists X; split=> //; last by move=> i j hij; rewrite f2 // f1.
  by case: HF => <- _; rewrite D1 // mulmx1 -mulmxA -uppL // e2 -lowL.
Qed.

(* nlo = 1 *)
Lemma lowU : nlo = 1%N -> mx N N (lob true nlo (lowerTri false cj LL)) = mx N N (BCHDiv_getL cj nlo LL).
Proof.
  move=> h; apply: mx_ext => i j _ _; rewrite /lob /lower /bandm /BCHDiv_getL /lowerTri h /= addn0.
  case: eqP => // ne; case: (ltnP j i) => g /=; first by rewrite (ltnW g) andbT.
  by rewrite ifN //; lia.
Qed.
Lemma uppU : nlo = 1%N -> mx N N (upb true nlo (upperTri false cj LL)) = adj (mx N N (BCHDiv_getL cj nlo LL)).
Proof.
  move=> h; apply/matrixP => i j; rewrite !mxE /upb /upper /bandm /BCHDiv_getL /upperTri h /= addn0 [(j == i :> nat)]eq_sym.
  case: eqP => [_|ne]; rewrite ?rmorph1 //; case: (ltnP i j) => g /=.
    by rewrite (ltnW g) /=; case: ifP; rewrite ?rmorph0.
  by rewrite ifN ?rmorph0 //; lia.
Qed.
Lemma alld (f : fv C) : (forall i, (i < N)%N -> f i != 0) -> all (fun i => f i != 0) (iota 0 N).
Proof. by move=> h; apply/allP => i; rewrite mem_iota => Hi; apply: h; lia. Qed.
Lemma Renz i : (i < N)%N -> 'Re (LL i i) != 0.
Proof. by move=> Hi; have [h1 h2] := HF.2 i Hi; rewrite realre. Qed.

Lemma getDmul K (X Y : fm C) : (nlo <= 1)%N -> (forall i k, (i < N)%N -> (k < K)%N -> Y i k = X i k / LL i i) ->
  mx N N (BCHDiv_getD cj nlo LL) *m mx N K Y = mx N K X.
Proof.
  move=> hn h; apply/matrixP => i k; rewrite !mxE (bigD1 i) //= big1 ?addr0; last first.
    move=> j Hj; rewrite !mxE /BCHDiv_getD; case: eqP => [E|_]; last by rewrite mul0r.
    by case/eqP: Hj; apply: val_inj; rewrite /= E.
  rewrite !mxE /BCHDiv_getD eqxx hn LLr // h // mulrC mulfVK //; by case: (HF.2 i (ltn_ord i)).
Qed.

Lemma unz (e : exn) A : zero_diag true N A e -> False. Proof. by case=> _ []. Qed.

Lemma BLDL_LDivEqP K m : nlo = 1%N -> exists X, [/\ BLDL_LDivEq stA stB cj N nlo K LL m = Ok X,
  mx N N H *m mx N K X = mx N K m & forall i j, ~~ ((i < N)%N && (j < K)%N) -> X i j = m i j].
Proof.
  move=> h; rewrite /BLDL_LDivEq.
  have := BTriLDivEqMLP stA stB true K (lowerTri false cj LL) m HN.
  case: (BTriLDivEqML _ _ _ _ _ _ _ _) => [Y|e|] //=; last by move/unz.
  case=> /mx_mulP h1 f1; rewrite /rowsdiv alld; last exact: Renz.
  rewrite /=; set Z := (X in BTriLDivEqMU _ _ _ _ _ _ _ X).
  have := BTriLDivEqMUP stA stB true N nlo K (upperTri false cj LL) Z.
  case: (BTriLDivEqMU _ _ _ _ _ _ _ _) => [X|e|] //=; last by move/unz.
  case=> /mx_mulP h2 f2; exists X; split=> //; last by move=> i j hij; rewrite f2 // /Z (negPf hij) f1.
  case: HF => <- hr; rewrite -mulmxA -uppU // h2 -mulmxA (@getDmul K Y Z); first by rewrite -lowU.
    by rewrite h.
  by move=> i k Hi Hk; rewrite /Z Hi Hk /= realre //; case: (hr i Hi).
Qed.

(** Hermitian, so right division is left division of the adjoint. *)
Lemma adjH : adj (mx N N H) = mx N N H.
Proof.
  case: HF => <- hr; rewrite !adjM mulmxA; congr (_ *m _ *m _).
    by apply/matrixP => i j; rewrite !mxE conjCK.
  apply/matrixP => i j; rewrite !mxE /BCHDiv_getD [(j == i :> nat)]eq_sym; case: (i =P j :> nat) => [E|_]; last by rewrite rmorph0.
  rewrite -E; case: ifP => _; rewrite ?rmorph1 // LLr // realcj //; by case: (hr i (ltn_ord i)).
Qed.
Lemma mx_adjf M K (X : fm C) : mx M K (adjf X) = map_mx conjC (mx K M X)^T.
Proof. by apply/matrixP => i j; rewrite !mxE. Qed.
Lemma adj_map n (M : 'M[C]_n) : adj M = map_mx conjC M^T.
Proof. by apply/matrixP => i j; rewrite !mxE. Qed.

Lemma right_of_left K m X : mx N N H *m mx N K X = mx N K (adjf m) -> mx K N (adjf X) *m mx N N H = mx K N m.
Proof.
  move=> E; rewrite -[in LHS]adjH adj_map mx_adjf -map_mxM -trmx_mul E mx_adjf.
  by apply/matrixP => i j; rewrite !mxE conjCK.
Qed.

Lemma BCH_RDivEqP K m : (1 < nlo)%N -> exists X, [/\ BCH_RDivEq stA stB isrm iscm isdm cj N nlo K LL m = Ok X,
  mx K N X *m mx N N H = mx K N m & forall i j, ~~ ((i < K)%N && (j < N)%N) -> X i j = m i j].
Proof.
  move=> h; have [X [E1 E2 E3]] := BCH_LDivEqP K (adjf m) h.
  exists (adjf X); split; last by move=> i j hij; rewrite /adjf E3 ?conjCK // andbC.
  - move: E1; rewrite /BCH_RDivEq /BCH_LDivEq; case: (bandLDivEq _ _ _ _ _ _ _ _ _ _ _) => [Y|e|] //= ->.
    by [].
  - exact: right_of_left.
Qed.

Lemma BLDL_RDivEqP K m : nlo = 1%N -> exists X, [/\ BLDL_RDivEq stA stB cj N nlo K LL m = Ok X,
  mx K N X *m mx N N H = mx K N m & forall i j, ~~ ((i < K)%N && (j < N)%N) -> X i j = m i j].
Proof.
  move=> h; rewrite /BLDL_RDivEq.
  have := BTriLDivEqMLP stA stB true K (lowerTri false cj LL) (adjf m) HN.
  case: (BTriLDivEqML _ _ _ _ _ _ _ _) => [Y|e|] //=; last by move/unz.
  case=> /mx_mulP h1 f1; rewrite /colsdiv alld; last exact: Renz.
  rewrite /=; set Z := (X in BTriLDivEqMU _ _ _ _ _ _ _ X).
  have := BTriLDivEqMUP stA stB true N nlo K (upperTri false cj LL) Z.
  case: (BTriLDivEqMU _ _ _ _ _ _ _ _) => [X|e|] //=; last by move/unz.
  case=> /mx_mulP h2 f2; exists (adjf X); split=> //; last first.
    move=> i j hij; rewrite /adjf f2; last by rewrite andbC.
    rewrite /Z /adjf (andbC (j < N)%N) (negPf hij) f1; last by rewrite andbC.
    by rewrite /adjf !conjCK.
  apply: right_of_left.
  case: HF => <- hr; rewrite -mulmxA -uppU // h2 -mulmxA (@getDmul K Y Z); first by rewrite -lowU.
    by rewrite h.
  move=> i k Hi Hk; have [r1 r2] := hr i Hi; rewrite /Z /adjf Hi Hk /= realre //.
  by rewrite fmorph_div /= conjCK (realcj r1).
Qed.

(* nlo = 0 *)
Lemma L0 : nlo = 0%N -> mx N N (BCHDiv_getL cj nlo LL) = 1%:M.
Proof.
  move=> h; apply/matrixP => i j; rewrite !mxE /BCHDiv_getL h /= -val_eqE; case: eqP => // ne.
  by rewrite ifN //; lia.
Qed.
Lemma H0 : nlo = 0%N -> mx N N (BCHDiv_getD cj nlo LL) = mx N N H.
Proof.
  move=> h; case: HF => <- _; rewrite L0 // mul1mx.
  have -> : adj (1%:M : 'M[C]_N) = 1%:M by apply/matrixP => i j; rewrite !mxE eq_sym rmorph_nat.
  by rewrite mulmx1.
Qed.

Lemma BCHDiv_LDivEqP K m : exists X, [/\ BCHDiv_LDivEq stA stB isrm iscm isdm cj N nlo K LL m = Ok X,
  mx N N H *m mx N K X = mx N K m & forall i j, ~~ ((i < N)%N && (j < K)%N) -> X i j = m i j].
Proof.
  rewrite /BCHDiv_LDivEq; case: ifP => h; first exact: BCH_LDivEqP.
  case: eqP => h1; first exact: BLDL_LDivEqP.
  have h0 : nlo = 0%N by lia.
  rewrite /rowsdiv alld; last exact: vnz.
  eexists; split; first by [].
    rewrite -H0 //; apply: getDmul; first by lia. by move=> i k Hi Hk; rewrite Hi Hk /= LLr.
  by move=> i j /negPf ->.
Qed.
Lemma BCHDiv_RDivEqP K m : exists X, [/\ BCHDiv_RDivEq stA stB isrm iscm isdm cj N nlo K LL m = Ok X,
  mx K N X *m mx N N H = mx K N m & forall i j, ~~ ((i < K)%N && (j < N)%N) -> X i j = m i j].
Proof.
  rewrite /BCHDiv_RDivEq; case: ifP => h; first exact: BCH_RDivEqP.
  case: eqP => h1; first exact: BLDL_RDivEqP.
  have h0 : nlo = 0%N by lia.
  rewrite /colsdiv alld; last exact: vnz.
  eexists; split; first by []; last by move=> i j; rewrite andbC => /negPf ->.
  rewrite -H0 //; apply/matrixP => k i; rewrite !mxE (bigD1 i) //= big1 ?addr0; last first.
    move=> j Hj; rewrite !mxE /BCHDiv_getD; case: (j =P i :> nat) => [E|_]; last by rewrite mulr0.
    by case/eqP: Hj; apply: val_inj.
  by rewrite !mxE /BCHDiv_getD eqxx h0 /= !ltn_ord /= mulfVK // vnz.
Qed.

(** ** Inverse *)
Lemma adj1 : adj (1%:M : 'M[C]_N) = 1%:M.
Proof. by apply/matrixP => i j; rewrite !mxE eq_sym rmorph_nat. Qed.

Lemma binv_lower u (X U Lm : fm C) : TriInv.binv u 0 N X U ->
  (forall i j, (i < N)%N -> (j < N)%N -> upper u U j i = Lm i j) ->
  mx N N (lower u (trm X)) *m mx N N Lm = 1%:M.
Proof.
  case=> h _ hL; apply/matrixP => i j; rewrite !mxE.
  have := h j i; rewrite add0n /= !ltn_ord => /(_ isT isT); rewrite big_mkord -val_eqE eq_sym => <-.
  apply: eq_bigr => k _; rewrite !mxE -hL // mulrC; congr (_ * _).
  by rewrite /upper /lower /trm eq_sym.
Qed.

Lemma outz : outzero nlo 0 N (trm (bspread cj nlo LL)).
Proof. by move=> i j _ _ h; rewrite /trm /bspread ifN //; lia. Qed.

Lemma BCH_InverseP : (1 < nlo)%N -> exists X, BCH_Inverse nb cj N nlo LL = Ok X /\ mx N N X *m mx N N H = 1%:M.
Proof.
  move=> h; rewrite /BCH_Inverse.
  have := @BTriInverseP C nb nbP false N nlo (trm (bspread cj nlo LL)) ltac:(lia) outz.
  case: (BTriInverse _ _ _ _ _) => [X|e|] //=; last first.
    case=> _ [_ [i [Hi /eqP E]]]; move: E; rewrite /trm /bspread leqnn leq_addr /= (negPf (vnz Hi)) //.
  move=> Hb; eexists; split; first by []; set L := lower false (trm X).
  have E1 : mx N N L *m mx N N (BCHDiv_getL cj nlo LL) = 1%:M.
    apply: (binv_lower Hb) => i j Hi Hj; rewrite /upper /trm /bspread /BCHDiv_getL [(nlo <= 1)%N]leqNgt h /=.
    by case: (ltngtP j i) => g //=; rewrite ?g ?leqnn ?leq_addr.
  set R := (X in X *m mx N N H); have -> : R = adj (mx N N L) *m mx N N L.
    by apply/matrixP => i j; rewrite !mxE big_mkord; apply: eq_bigr => k _; rewrite !mxE.
  case: HF => <- _; rewrite D1 // mulmx1 mulmxA -(mulmxA (adj _)) E1 mulmx1 -adjM (mulmx1C E1); exact: adj1.
Qed.

Lemma BLDL_InverseP : nlo = 1%N -> exists X, BLDL_Inverse nb cj N nlo LL = Ok X /\
  exists M : 'M[C]_N, [/\ M *m mx N N H = 1%:M, adj M = M & forall i j : 'I_N, (j <= i)%N -> X i j = M i j].
Proof.
  move=> h; rewrite /BLDL_Inverse.
  have := @BTriInverseP C nb nbP true N 1 (trm (bspread cj nlo LL)) ltac:(by []) ltac:(rewrite -h; exact: outz).
  case: (BTriInverse _ _ _ _ _) => [X|e|] //; rewrite /post /bindO; last by case=> _ [].
  move=> Hb; have Hd i : (i < N)%N -> trm X i i = LL i i.
    move=> Hi; rewrite /trm (Hb.2 i i); last by lia.
    by rewrite /trm /bspread leqnn leq_addr /= LLr.
  rewrite alld; last by move=> i Hi; rewrite Hd //; exact: Renz.
  set S := (X in SCombine _ _ X).
  have [R [-> e]] := @SCombineP N.+1 N S (ltnSn N).
  exists R; split=> //.
  have SD i : (i < N)%N -> S i i = (LL i i)^-1.
    by move=> Hi; have [r1 r2] := HF.2 i Hi; rewrite /S eqxx Hi /= Hd // setre_real // realre.
  have E1 : mx N N (lower true S) *m mx N N (BCHDiv_getL cj nlo LL) = 1%:M.
    have -> : mx N N (lower true S) = mx N N (lower true (trm X)).
      by apply: mx_ext => i j Hi Hj; rewrite /lower; case: eqP => // ne; case: ifP => // g; rewrite /S ifN //; lia.
    apply: (binv_lower Hb) => i j Hi Hj; rewrite /upper /trm /bspread /BCHDiv_getL h /= [i == j]eq_sym.
    case: eqP => // ne; case: (ltnP j i) => g; first by rewrite (ltnW g).
    by rewrite ifN //; lia.
  pose Di : 'M[C]_N := diagm N (fun i _ => (LL i i)^-1).
  have ED : Di *m mx N N (BCHDiv_getD cj nlo LL) = 1%:M.
    apply/matrixP => i j; rewrite !mxE (bigD1 i) //= big1 ?addr0; last first.
      by move=> k Hk; rewrite !mxE eq_sym (negPf Hk) mul0r.
    rewrite !mxE eqxx /BCHDiv_getD h /=; case: (i =P j) => [<-|ne].
      by rewrite eqxx LLr // mulVf //; case: (HF.2 i (ltn_ord i)).
    by rewrite ifN ?mulr0 // (inj_eq val_inj); apply/eqP.
  set L := mx N N (lower true S) in E1.
  exists (adj L *m Di *m L); split.
  - case: HF => <- _; rewrite !mulmxA -(mulmxA (_ *m Di)) E1 mulmx1 -(mulmxA (adj L)) ED mulmx1 -adjM (mulmx1C E1); exact: adj1.
  - rewrite !adjM mulmxA; congr (_ *m _ *m _); last by apply/matrixP => i j; rewrite !mxE conjCK.
    apply/matrixP => i j; rewrite !mxE eq_sym; case: eqP => [->|_]; last by rewrite rmorph0.
    by rewrite fmorphV /= realcj //; case: (HF.2 j (ltn_ord j)).
  - move=> i j Hij; rewrite e ltn_ord Hij /= /xdx big_mkord mxE; apply: eq_bigr => k _.
    rewrite SD // mulrA; congr (_ * _); last by rewrite mxE.
    rewrite mxE (bigD1 k) //= big1 ?addr0; last by move=> l Hl; rewrite !mxE (negPf Hl) mulr0.
    by rewrite !mxE eqxx.
Qed.

Lemma BCHDiv_InverseLowP : exists X, BCHDiv_InverseLow nb cj N nlo LL = Ok X /\
    exists M : 'M[C]_N, [/\ M *m mx N N H = 1%:M, adj M = M & forall i j : 'I_N, (j <= i)%N -> X i j = M i j].
Proof.
  rewrite /BCHDiv_InverseLow; case: ifP => h.
    have [X [-> E]] := BCH_InverseP h; exists X; split=> //; exists (mx N N X); split=> //; last by move=> i j _; rewrite mxE.
    have E2 := mulmx1C E.
    have E3 : adj (mx N N X) *m mx N N H = 1%:M by rewrite -{1}adjH -adjM E2; exact: adj1.
    by rewrite -[LHS]mulmx1 -E2 mulmxA E3 mul1mx.
  case: eqP => h1; first exact: BLDL_InverseP.
  have h0 : nlo = 0%N by lia.
  rewrite alld; last exact: Renz.
  eexists; split; first by [].
  exists (diagm N (fun i _ => (LL i i)^-1)); split.
  - rewrite -H0 //; apply/matrixP => i j; rewrite !mxE (bigD1 i) //= big1 ?addr0; last first.
      by move=> k Hk; rewrite !mxE eq_sym (negPf Hk) mul0r.
    rewrite !mxE eqxx /BCHDiv_getD h0 /=; case: (i =P j) => [<-|ne].
      by rewrite eqxx LLr // mulVf //; case: (HF.2 i (ltn_ord i)).
    by rewrite ifN ?mulr0 // (inj_eq val_inj); apply/eqP.
  - apply/matrixP => i j; rewrite !mxE eq_sym; case: eqP => [->|_]; last by rewrite rmorph0.
    by rewrite fmorphV /= realcj //; case: (HF.2 j (ltn_ord j)).
  - move=> i j _; rewrite mxE -val_eqE /=; case: eqP => // _.
    by rewrite realre //; case: (HF.2 i (ltn_ord i)).
Qed.

Lemma BCHDiv_InverseP m : exists X, [/\ BCHDiv_Inverse nb cj N nlo LL m = Ok X,
  mx N N X *m mx N N H = 1%:M, mx N N H *m mx N N X = 1%:M & forall i j, ~~ ((i < N)%N && (j < N)%N) -> X i j = m i j].
Proof.
  rewrite /BCHDiv_Inverse.
  have [V [-> [M [M1 M2 M3]]]] := BCHDiv_InverseLowP.
  eexists; split; first by [].
  - have -> // : mx N N (fun i j => if (i < N)%N && (j < N)%N then if (j <= i)%N then V i j else (V j i)^* else m i j) = M.
    apply/matrixP => i j; rewrite mxE !ltn_ord /=; case: leqP => g; first by rewrite M3.
    by rewrite (M3 j i (ltnW g)) -[in RHS]M2 mxE.
  - apply: mulmx1C; have -> // : mx N N (fun i j => if (i < N)%N && (j < N)%N then if (j <= i)%N then V i j else (V j i)^* else m i j) = M.
    apply/matrixP => i j; rewrite mxE !ltn_ord /=; case: leqP => g; first by rewrite M3.
    by rewrite (M3 j i (ltnW g)) -[in RHS]M2 mxE.
  - by move=> i j /negPf ->.
Qed.

(** ** Determinant *)
Lemma det_getL : \det (mx N N (BCHDiv_getL cj nlo LL)) = if (nlo <= 1)%N then 1 else \prod_(i < N) LL i i.
Proof.
  rewrite det_trig; last first.
    apply/is_trig_mxP => i j hij; rewrite mxE /BCHDiv_getL ifN ?ifN //; first by lia.
    by rewrite negb_and; apply/orP; right; rewrite neq_ltn hij.
  case: ifP => h; first by rewrite big1 // => i _; rewrite mxE /BCHDiv_getL h eqxx.
  by apply: eq_bigr => i _; rewrite mxE /BCHDiv_getL h /= leqnn leq_addr LLr.
Qed.
Lemma det_H : \det (mx N N H) = if (nlo <= 1)%N then \prod_(i < N) LL i i else (\prod_(i < N) LL i i) ^+ 2.
Proof.
  have rp : (\prod_(i < N) LL i i)^* = \prod_(i < N) LL i i.
    by rewrite rmorph_prod; apply: eq_bigr => i _; apply: realcj; case: (HF.2 i (ltn_ord i)).
  case: (HF) => <- _; rewrite !det_mulmx det_adj det_getL getD_diag det_diagm; case: ifP => h.
    by rewrite rmorph1 mulr1 mul1r; apply: eq_bigr => i _; rewrite /BCHDiv_getD eqxx h LLr.
  rewrite rp [X in _ * X * _]big1 ?mulr1 ?expr2 // => i _; by rewrite /BCHDiv_getD eqxx h.
Qed.
Lemma BCHDiv_detP : BCHDiv_det N nlo LL = `|\det (mx N N H)|.
Proof.
  rewrite det_H /BCHDiv_det big_mkord ltnNge; case: (nlo <= 1)%N => /=; first by rewrite normr_prod.
  by rewrite normrX normr_prod.
Qed.
Lemma BCHDiv_signP : BCHDiv_sign N LL = 1.
Proof. by rewrite /BCHDiv_sign alld // => i Hi; case: (HF.2 i Hi). Qed.
End Use.

(** ** The object made *)
Section New.
Variables (stA stB : stor) (isrm iscm isdm : bool).

Lemma chfacts_bchfacts cjL N nlo raw LL : (1 < nlo)%N ->
  chfacts false cjL N (band_of nlo nlo raw) (band_of nlo nlo LL) ->
  bchfacts cjL N nlo (hermview false cjL (band_of nlo nlo raw)) LL.
Proof.
  move=> h [E p _].
  have p' i : (i < N)%N -> 0 < LL i i by move=> Hi; have := p i Hi; rewrite bandof_lband // lband_d.
  split; last by move=> i Hi; split; [apply: gtr0_real | rewrite gt_eqF //]; exact: p'.
  rewrite -E; have -> : mx N N (BCHDiv_getD cjL nlo LL) = 1%:M by exact: D1.
  rewrite mulmx1; have -> // : mx N N (BCHDiv_getL cjL nlo LL) = mx N N (lowview false cjL (band_of nlo nlo LL)).
  apply: mx_ext => i j _ _; rewrite /BCHDiv_getL /lowview /lowerTri /velt /band_of [(nlo <= 1)%N]leqNgt h /=.
  case: (leqP j i) => g //=; have -> : (j <= i + nlo)%N by lia.
  by rewrite andbT; case: ifP => //; case: (cjL); rewrite ?rmorph0.
Qed.

Lemma ldl_bchfacts cjL N (H : fm C) LL : (forall i, (i < N)%N -> LL i i != 0 /\ cs true (LL i i) = LL i i) ->
  mx N N (lower true (symview true false cjL (band_of 1 1 LL))) *m diagm N (symview true false cjL LL) *m
     csadj true (mx N N (lower true (symview true false cjL (band_of 1 1 LL)))) = mx N N H ->
  bchfacts cjL N 1 H LL.
Proof.
  move=> hd E; split; last by move=> i Hi; have [h1 h2] := hd i Hi; split=> //; apply/CrealP.
  rewrite -E; have -> : mx N N (BCHDiv_getD cjL 1 LL) = diagm N (symview true false cjL LL).
    apply/matrixP => i j; rewrite !mxE /BCHDiv_getD -[(i == j :> 'I_N)]val_eqE /=; case: eqP => // ->.
    by rewrite /symview leqnn.
  have -> // : mx N N (BCHDiv_getL cjL 1 LL) = mx N N (lower true (symview true false cjL (band_of 1 1 LL))).
  apply: mx_ext => i j _ _; rewrite /BCHDiv_getL /lower /symview /band_of /velt /=.
  case: eqP => // ne; case: (ltnP j i) => g; last by rewrite ifN //; lia.
  rewrite (ltnW g) /=; have -> : (j <= i + 1)%N by lia.
  by rewrite andbT; case: ifP => //; case: (cjL); rewrite ?rmorph0.
Qed.

(** The array LLx starts with shows the same hermitian matrix. *)
Lemma start_view (ip upper cj : bool) N nlo raw i j : hermok N raw -> (i < N)%N -> (j < N)%N ->
  hermview false (if ip then upper (+) cj else false)
     (band_of nlo nlo (if ip then core upper raw else lowerTri upper cj raw)) i j =
  hermview upper cj (band_of nlo nlo raw) i j.
Proof.
  move=> Hr Hi Hj; rewrite /hermview /velt /band_of /core /trm /lowerTri /velt.
  have [r1 r2] : ((raw i i)^* = raw i i /\ (raw j j)^* = raw j j) by split; apply: realcj; apply: Hr.
  rewrite [(i <= j + nlo)%N && _]andbC.
  by case: ip; case: upper; case: cj; case: (ltngtP j i) => g //=;
    rewrite ?[(j <= i + nlo)%N && (i <= j + nlo)%N]andbC; try subst j; rewrite ?leq_addr /=;
    repeat case: ifP => //; rewrite ?conjCK ?rmorph0 ?r1 ?r2 //.
Qed.

Lemma bchfacts_ext cj N nlo (H H' : fm C) LL : (forall i j, (i < N)%N -> (j < N)%N -> H i j = H' i j) ->
  bchfacts cj N nlo H LL -> bchfacts cj N nlo H' LL.
Proof. by move=> h [E1 E2]; split=> //; rewrite E1; apply: mx_ext => i j Hi Hj; exact: h. Qed.

Lemma posdef_getD cj N nlo (H LL : fm C) : (nlo < N)%N -> bchfacts cj N nlo H LL ->
  posdef N H <-> forall i, (i < N)%N -> 0 < BCHDiv_getD cj nlo LL i i.
Proof.
  move=> HN HF; apply: (@posdef_ldl C N H (BCHDiv_getL cj nlo LL)).
    rewrite unitmxE (@det_getL cj N nlo H LL HN HF 1%N isT) unitfE; case: ifP => _; first exact: oner_neq0.
    by apply/prodf_neq0 => i _; case: (HF.2 i (ltn_ord i)).
  by case: HF => <- _; rewrite getD_diag.
Qed.

Lemma BCHDiv_newP (rm cm dm inplace upper cj : bool) N nlo raw junk : (nlo < N)%N -> hermok N raw ->
  (inplace -> bch_inplace rm cm dm inplace nlo) ->
  let A := hermview upper cj (band_of nlo nlo raw) in
  post (fun Q => [/\ bchfacts Q.2 N nlo A Q.1, nlo <> 1%N -> posdef N A /\ (forall i, (i < N)%N -> 0 < Q.1 i i) &
                     nlo = 1%N -> ~ minor0 N A])
       (fun e => e = NonPosDef /\ if nlo == 1%N then minor0 N A else ~ posdef N A)
       (BCHDiv_new stA stB isrm iscm isdm rm cm dm inplace upper cj N nlo raw junk).
Proof.
  move=> HN Hr Hip A; rewrite /BCHDiv_new; set ip := bch_inplace _ _ _ _ _ in Hip *.
  have ipT0 : nlo = 0%N -> ip by move=> h0; rewrite /ip /bch_inplace h0 orbT.
  clearbody ip; set cjL := if ip then upper (+) cj else false.
  set LL0 := (if ip then core upper raw else lowerTri upper cj raw).
  have -> : (if ip then core upper raw else if inplace then junk else lowerTri upper cj raw) = LL0.
    by move: Hip; rewrite /LL0; case: (ip) => //; case: (inplace) => // /(_ isT).
  have SV i j : (i < N)%N -> (j < N)%N -> hermview false cjL (band_of nlo nlo LL0) i j = A i j.
    by move=> Hi Hj; exact: (@start_view ip upper cj N nlo raw i j Hr Hi Hj).
  have Hr0 : hermok N LL0.
    move=> i Hi; have rr := Hr i Hi; rewrite /LL0 /core /trm /lowerTri /velt.
    by case: (ip); case: (upper); case: (cj); rewrite ?conjCK // CrealJ.
  apply: post_bind; case: (ltnP 1 nlo) => h1.
    have := @BCH_DecomposeP C stA stB isrm iscm isdm (if ip then (if upper then rm else cm) else true) false cjL N nlo LL0 HN Hr0.
    apply: post_imp => [R [g1 g2 g3]|e [-> g]] /=; last first.
      rewrite (_ : (nlo == 1%N) = false); last by lia.
      by split=> // hp; apply: g; apply: posdef_ext hp => i j Hi Hj; rewrite SV.
    split; last by move=> E; move: h1; rewrite E.
      by apply: bchfacts_ext (chfacts_bchfacts h1 g1) => i j Hi Hj; exact: SV.
    move=> _; split; first by apply: posdef_ext g2 => i j Hi Hj; exact: SV.
    by move=> i Hi; case: g1 => _ p _; have := p i Hi; rewrite bandof_lband // lband_d.
  case: (nlo =P 1%N) => h2.
    have Hd : diagok true N LL0 by move=> i Hi; apply: realcj; exact: Hr0.
    have SM : minor0 N A <-> minor0 N (symview true false cjL (band_of 1 1 LL0)).
      split=> - [k [k1 k2 k3]]; exists k; split=> //; rewrite -{}k3; congr (\det _); apply: mx_ext => i j Hi Hj.
        by rewrite -hermview_symview -{1 2}h2 SV //; lia.
      by rewrite -SV; [rewrite h2 | lia | lia].
    have := @BLDL_DecomposeP C true (if ip then dm else true) false cjL N LL0 isT ltac:(lia) Hd.
    apply: post_imp => [R [g1 g2 g3 g4]|e [-> g]] /=; last by split=> //; apply/SM.
    split=> //; last by move=> _ /SM.
    rewrite h2; apply: bchfacts_ext (ldl_bchfacts g2 g1) => i j Hi Hj.
    by rewrite -hermview_symview -{1 2}h2; exact: SV.
  have h0 : nlo = 0%N by lia.
  have ipT := ipT0 h0.
  have E0 i : LL0 i i = raw i i by rewrite /LL0 ipT /core /trm; case: (upper).
  have HF : (forall i, (i < N)%N -> raw i i != 0) -> bchfacts cjL N nlo A LL0.
    move=> hz; split; last by move=> i Hi; split; [exact: Hr0 | rewrite E0; exact: hz].
    have -> : mx N N (BCHDiv_getL cjL nlo LL0) = 1%:M by exact: (@L0 cjL N nlo LL0 HN 1%N isT).
    have -> : adj (1%:M : 'M[C]_N) = 1%:M by exact: adj1.
    rewrite mul1mx mulmx1; apply: mx_ext => i j Hi Hj; rewrite -SV // /BCHDiv_getD h0 /= /hermview /velt /band_of !addn0.
    case: (ltngtP i j) => g /=; last by rewrite g.
      by case: (cjL); rewrite ?rmorph0.
    by case: (cjL); rewrite ?rmorph0.
  have PD : posdef N A <-> forall i, (i < N)%N -> 0 < raw i i.
    split=> [hp i Hi|hp].
      have hx : exists k, (k < N)%N /\ (fun k : nat => (k == i)%:R) k != 0 :> C by exists i; rewrite eqxx oner_neq0.
      have := hp _ hx; rewrite /qform big_mkord (bigD1 (Ordinal Hi)) //= [X in _ + X]big1 ?addr0; last first.
        by move=> k Hk; rewrite big1 // => l _; rewrite (_ : (k == i :> nat) = false) ?mul0r //; apply/negbTE; move: Hk; rewrite -val_eqE.
      rewrite big_mkord (bigD1 (Ordinal Hi)) //= big1 ?addr0; last first.
        by move=> k Hk; rewrite (_ : (k == i :> nat) = false) ?rmorph0 ?mulr0 //; apply/negbTE; move: Hk; rewrite -val_eqE.
      rewrite !eqxx rmorph1 mulr1 mul1r /A /hermview leqnn if_same /velt /band_of leq_addr /=.
      by case: (cj) => //; rewrite realcj //; exact: Hr.
    have F : bchfacts cjL N nlo A LL0 by apply: HF => i Hi; rewrite gt_eqF //; exact: hp.
    apply/(posdef_getD HN F) => i Hi; rewrite /BCHDiv_getD eqxx h0 /= (LLr F) // E0; exact: hp.
  case: hasP => [[i]|hn] /=.
    rewrite mem_iota add0n => Hi hle.
    split=> // /PD /(_ i Hi) hlt; move: hle; rewrite realre; last exact: Hr.
    by move=> hle; have := lt_le_trans hlt hle; rewrite ltxx.
  have hp i : (i < N)%N -> 0 < raw i i.
    move=> Hi; have rr := Hr i Hi; rewrite real_ltNge ?real0 //; apply/negP => hle; apply: hn; exists i; rewrite ?mem_iota ?realre //; lia.
  split=> //.
  - by apply: HF => i Hi; rewrite gt_eqF //; exact: hp.
  - by move=> _; split; [apply/PD | move=> i Hi; rewrite E0; exact: hp].
Qed.
End New.
End Proofs.
