(** Division by a square band matrix through its LU decomposition:
    src/TMV_BandLUD.cpp (BandLUDiv), src/TMV_BandLUDiv.cpp, src/TMV_BandLUInverse.cpp. *)
From mathcomp Require Import all_ssreflect all_fingroup all_algebra zify.
From Verif Require Import Base FMat TriSolve TriInv RowPerm LU LUProofs LUDiv BandTri BandLU.
Set Implicit Arguments. Unset Strict Implicit. Unset Printing Implicit Defensive.
Import GRing.Theory Num.Theory Order.Theory.
Local Open Scope ring_scope.

Section Model.
Variable F : numFieldType.
Implicit Types (A V U m : fm F) (P : nat -> nat).
(** TRI_DIV_BLOCKSIZE; the storage orders of LUx and of the right-hand side. *)
Variable nb : nat.
Variables stA stB : stor.

(** LU_LDivEq, TMV_BandLUDiv.cpp:811-832 with NonLapLU_LDivEq: P L U x = m, K columns. *)
Definition BLU_LDivEq (N nlo nhi K : nat) V P m : outcome (fm F) :=
  if (0 < N)%N && (0 < K)%N then
    BTriLDivEqMU stA stB false N nhi K V (PackedPL_LDivEq N nlo K V P m)
  else Ok m.

(** The order of the transpose of a view. *)
Definition trst (s : stor) : stor := match s with RM => CM | CM => RM | XM => XM end.

(** LU_RDivEq, 834-855 with NonLapLU_RDivEq, 245-270: x P L U = m, K rows. *)
Definition BLU_RDivEq (N nlo nhi K : nat) V P m : outcome (fm F) :=
  if (0 < N)%N && (0 < K)%N then
    bindO (BTriLDivEqML (trst stA) (trst stB) false N nhi K (trm V) (trm m)) (fun Y =>
    Ok (PackedPL_RDivEq N nlo K V P (trm Y)))
  else Ok m.

(** U01.colRange(0,w) = -U00 * U01.colRange(0,w), TMV_BandLUInverse.cpp:143-146. *)
Definition bnegmulL (unit : bool) (o k w : nat) U : fm F :=
  fun r c => if (o <= r < o + k)%N && (o + k <= c < o + k + w)%N
             then - \sum_(o <= j < o + k) upper unit U r j * U j c else U r c.

(** RecursiveInverse, 105-149. *)
Fixpoint brecinv (fuel : nat) (unit : bool) (nhi o N : nat) U : outcome (fm F) :=
  match fuel with
  | 0 => UB
  | f.+1 =>
    if N == 1%N then
      if unit then Ok U else if U o o == 0 then Throw Singular else Ok (updm U o o (U o o)^-1)
    else
      let k := halve nb N in
      bindO (brecinv f unit nhi o k U) (fun U1 =>
      bindO (brecinv f unit nhi (o + k) (N - k) U1) (fun U2 =>
      Ok (mulR unit o k N (bnegmulL unit o k (if (nhi < N - k)%N then nhi else N - k)%N U2))))
  end.

(** DiagMatrixView::invertSelf, TMV_DiagMatrix.cpp:150-190. *)
Definition diaginv (N : nat) U : outcome (fm F) :=
  loop (up N) (fun i (U : fm F) => if U i i == 0 then Throw Singular else Ok (updm U i i (U i i)^-1)) U.

(** TriInverse(U,nhi), 169-199. *)
Definition BTriInverse (unit : bool) (N nhi : nat) U : outcome (fm F) :=
  if (0 < N)%N then
    if nhi == 0%N then diaginv N U else brecinv N unit nhi 0 N U
  else Ok U.

(** minv.setZero(); minv.upperTri() = BandMatrixViewOf(LUx,0,nhi), 78-80. *)
Definition invinit (N nhi : nat) V m : fm F :=
  let m := fun i j => if (i < N)%N && (j < N)%N then 0 else m i j in
  fun i j => if [&& (i < N)%N, (j < N)%N & (i <= j)%N] then bandm 0 nhi V i j else m i j.
(** LU_Inverse, 56-84: zero, the band of U copied, inverted, divided by P*L. *)
Definition BLU_Inverse (N nlo nhi : nat) V P m : outcome (fm F) :=
  if (0 < N)%N then
    bindO (BTriInverse false N nhi (invinit N nhi V m)) (fun U => Ok (PackedPL_RDivEq N nlo N V P U))
  else Ok m.

(** The storage and the bands of BandLUDiv, TMV_BandLUD.cpp:58-84, 89-96. *)
Definition bl_trans (nlo nhi : nat) (isrm : bool) : bool :=
  (nhi < nlo)%N || (nhi == nlo) && isrm.
Definition bl_lo (nlo nhi : nat) : nat := minn nlo nhi.
Definition bl_hi (N nlo nhi : nat) : nat := minn (nlo + nhi) N.-1.
Definition bl_trid (nlo nhi : nat) : bool := (nlo == 1%N) && (nhi == 1%N).
Definition bl_inplace (nlo nhi : nat) (isrm iscm isdm inplace : bool) : bool :=
  (bl_lo nlo nhi == 0%N) ||
  inplace && [|| isrm && bl_trans nlo nhi isrm, iscm && ~~ bl_trans nlo nhi isrm | isdm && bl_trid nlo nhi].

(** BandLUDiv::BandLUDiv(A,inplace), 112-158.  [inplace] is the argument; [bl_inplace]
    the member of the same name, which decides whether LUx is A's own memory or a new
    array holding [junk].  What LUx holds is given as a function; when it is A's own
    memory with more diagonals the manual asks that they exist apart from A's
    (doc/BandMatrix.tex:609-622), so they hold whatever [junk] says.  The new pivot array is the identity
    (TMV_Permutation.h, Permutation(n)). *)
Definition BandLUDiv_ctor (isrm iscm isdm inplace : bool) (N nlo nhi : nat) A junk : outcome (fm F * (nat -> nat)) :=
  let istrans := bl_trans nlo nhi isrm in
  let inpl := bl_inplace nlo nhi isrm iscm isdm inplace in
  let A' := if istrans then trm A else A in
  let lo := if istrans then nhi else nlo in
  let hi := if istrans then nlo else nhi in
  let newhi := bl_hi N nlo nhi in
  let put (L : fm F) := fun i j => if inb N lo hi i j then A' i j else L i j in
  let LUx := if inpl then put junk else junk in
  let LUx := if inplace then LUx else put LUx in
  if (0 < lo)%N then
    let LUx := fun i j => if inb N lo newhi i j && (i + hi < j)%N then 0 else LUx i j in
    let cm := if inpl then (if istrans then isrm else iscm) else ~~ bl_trid nlo nhi in
    BandLU_Decompose cm N lo newhi LUx id
  else Ok (LUx, id).

(** doLDivEq, doRDivEq, doMakeInverse: 215-247, 277-284. *)
Definition bdoLDivEq (istrans : bool) (N lo hi K : nat) V P m : outcome (fm F) :=
  if istrans then bindO (BLU_RDivEq N lo hi K V P (trm m)) (fun X => Ok (trm X))
  else BLU_LDivEq N lo hi K V P m.
Definition bdoRDivEq (istrans : bool) (N lo hi K : nat) V P m : outcome (fm F) :=
  if istrans then bindO (BLU_LDivEq N lo hi K V P (trm m)) (fun X => Ok (trm X))
  else BLU_RDivEq N lo hi K V P m.
Definition bdoMakeInverse (istrans : bool) (N lo hi : nat) V P m : outcome (fm F) :=
  if istrans then bindO (BLU_Inverse N lo hi V P (trm m)) (fun X => Ok (trm X))
  else BLU_Inverse N lo hi V P m.

(** LU_Decompose(A,L,U,P), TMV_BandLUDecompose.cpp:467-490: a new ColMajor band matrix
    with nlo and nlo+nhi diagonals (not cut off at N-1), holding [junk]. *)
Definition BandLU_full (N nlo nhi : nat) A junk : outcome (fm F * (nat -> nat)) :=
  let LU := fun i j => if inb N nlo nhi i j then A i j
                       else if inb N nlo (nlo + nhi) i j && (i < j)%N then 0 else junk i j in
  BandLU_Decompose true N nlo (nlo + nhi) LU id.
End Model.

Section Proofs.
Variable F : numFieldType.
Implicit Types (A B V U X Y m : fm F) (P : nat -> nat).

(** What a decomposition gives, in matrix form: L is the unpacked unit lower
    triangle, U the upper band. *)
Definition Lof N nlo V P : 'M[F]_N := mx N N (lower true (unpk N nlo V P N)).
Definition Uof N nhi V : 'M[F]_N := mx N N (upb false nhi V).

Definition blufacts (N nlo nhi : nat) A V P (s : 'S_N) : Prop :=
  [/\ forall i : 'I_N, psig P 0 N i = s i :> nat,
      forall k, (k < N)%N -> (k <= P k < N)%N && (P k <= k + nlo)%N,
      Lof N nlo V P *m Uof N nhi V = row_perm s (mx N N A)
    & \det (mx N N A) = LUdet N V P].

Lemma Lof_det N nlo V P : \det (Lof N nlo V P) = 1.
Proof. exact: lowdet. Qed.
Lemma Uof_det N nhi V : \det (Uof N nhi V) = \prod_(0 <= i < N) V i i.
Proof.
  rewrite /Uof /upb updet; apply: eq_big_nat => i _.
  by rewrite /bandm !leq_addr.
Qed.

Lemma bspec_facts N nlo hi0 nhi A0 A P0 V P :
  (forall i j, (i < N)%N -> (j < N)%N -> bandm nlo hi0 A0 i j = A i j) ->
  bspec N nlo hi0 nhi A0 P0 V P -> exists s, @blufacts N nlo nhi A V P s.
Proof.
  move=> HA [I1 I2 I3 _].
  have [s [Hs Ho]] := @psig_perm N P 0 N ltac:(by move=> k Hk; have := I1 k; lia).
  exists s.
  have E : Lof N nlo V P *m Uof N nhi V = row_perm s (mx N N A).
    rewrite -(mx_psig _ _ Hs); apply/mx_mulP => i j Hi Hj; rewrite -HA //; last by rewrite (Hs (Ordinal Hi)).
    by rewrite -I2 // big_mkord.
  split=> //.
  have := congr1 determinant E; rewrite det_mulmx Lof_det Uof_det mul1r row_permE det_mulmx det_perm Ho => E2.
  rewrite /LUdet /pivsign E2 mulrA signr_odd -exprD.
  by rewrite -signr_odd oddD addbb expr0 mul1r.
Qed.

Lemma bspec0 N hi A : bspec N 0 hi hi A id A id.
Proof.
  split=> //.
  - by move=> k Hk; lia.
  - move=> i c Hi Hc; rewrite diagL //; last by move=> *; rewrite unpk0.
    rewrite psig_id // /upper /bandm; case: (i =P c) => [->|Ne]; first by rewrite !leq_addr.
    case: ltnP => // h; first by rewrite ifN //; lia.
  - by move=> k i Hk; lia.
Qed.

(** The constructor: whatever the new memory held, provided the argument and the
    member "inplace" agree on whose memory is used. *)
Lemma BandLUDiv_ctorP (isrm iscm isdm inplace : bool) N nlo nhi A junk :
  (nlo < N)%N -> (nhi < N)%N -> (inplace -> bl_inplace nlo nhi isrm iscm isdm inplace) ->
  let A' := if bl_trans nlo nhi isrm then trm A else A in
  post (fun S => exists A0, (forall i j, (i < N)%N -> (j < N)%N ->
                   bandm (bl_lo nlo nhi) (maxn nlo nhi) A0 i j = bandm (bl_lo nlo nhi) (maxn nlo nhi) A' i j) /\
                   bspec N (bl_lo nlo nhi) (maxn nlo nhi) (bl_hi N nlo nhi) A0 id S.1 S.2)
       (fun _ => False)
       (BandLUDiv_ctor isrm iscm isdm inplace N nlo nhi A junk).
Proof.
  move=> Hlo Hhi Hin A'; rewrite /BandLUDiv_ctor -/A'.
  set inpl := bl_inplace _ _ _ _ _ _ in Hin *.
  have -> : (if bl_trans nlo nhi isrm then nhi else nlo) = bl_lo nlo nhi.
    by rewrite /bl_trans /bl_lo; case: ifP; case: (isrm); lia.
  have -> : (if bl_trans nlo nhi isrm then nlo else nhi) = maxn nlo nhi.
    by rewrite /bl_trans; case: ifP; case: (isrm); lia.
  set lo := bl_lo nlo nhi; set hi := maxn nlo nhi; set nh := bl_hi N nlo nhi.
  set L := if inplace then _ else _.
  have EL i j : (i < N)%N -> (j < N)%N -> bandm lo hi L i j = bandm lo hi A' i j.
    move=> Hi Hj; rewrite /bandm; case: ifP => // Hb.
    have Hin' : inb N lo hi i j by rewrite /inb Hi Hj.
    rewrite /L; case: (inplace) Hin => Hin; last by rewrite Hin'.
    by rewrite Hin // Hin'.
  case: (posnP lo) => [E0|Hpos].
    exists L; split=> //=; rewrite E0.
    have -> : nh = hi by rewrite /nh /hi /bl_hi; rewrite /lo /bl_lo in E0; lia.
    exact: bspec0.
  pose L' : fm F := fun i j => if inb N lo nh i j && (i + hi < j)%N then 0 else L i j.
  have HD : (if inpl then (if bl_trans nlo nhi isrm then isrm else iscm) else ~~ bl_trid nlo nhi)
            || (lo == 1%N) && (hi == 1%N).
    rewrite /inpl /bl_inplace -/lo (_ : (lo == 0%N) = false) /=; last by lia.
    rewrite /bl_trid /lo /hi /bl_lo.
    case: ifP => h; last by lia.
    case/andP: h => _ /or3P [/andP [-> ->] //|/andP [-> /negPf ->] //|/andP [_ h]].
    by apply/orP; right; lia.
  apply: (post_imp _ _ (@BandLU_DecomposeP F _ N lo hi nh L' id _ _ _ HD _)) => //.
  - move=> S HS; exists L'; split=> // i j Hi Hj; rewrite -EL // /bandm; case: ifP => // Hb.
    by rewrite /L' ifN //; lia.
  - by rewrite /lo /bl_lo; lia.
  - by rewrite /hi; lia.
  - by rewrite /nh /bl_hi /lo /hi /bl_lo; lia.
  - by move=> i c Hi Hc Hic; rewrite /L' ifT // /inb Hi Hc; lia.
Qed.

Lemma bdet0P N nlo nhi A V P s : @blufacts N nlo nhi A V P s ->
  (exists i, (i < N)%N /\ V i i = 0) -> \det (mx N N A) = 0.
Proof.
  move=> [_ _ _ ->] [i [Hi E]]; rewrite /LUdet big_mkord (bigD1 (Ordinal Hi)) //= E mul0r mulr0 //.
Qed.

(** ** Forward elimination in all columns *)
Definition fwdm N nlo V P m : fm F := fun r c => fwdv N nlo V P N.-1 (colof m c) r.

Lemma fwdv_id N V P n y r : (forall k, (k < n)%N -> P k = k) -> fwdv N 0 V P n y r = y r.
Proof.
  elim: n r => [//|n IH] r H; rewrite fwdvS /fstep ifN; last by lia.
  rewrite H // tsw_same IH //. by move=> k Hk; apply: H; lia.
Qed.

Lemma fwdmP N nlo V P K m (s : 'S_N) : (0 < N)%N ->
  (forall k, (k < N)%N -> (k <= P k < N)%N) -> (forall i : 'I_N, psig P 0 N i = s i :> nat) ->
  Lof N nlo V P *m mx N K (fwdm N nlo V P m) = row_perm s (mx N K m).
Proof.
  move=> HN HP Hs; rewrite -(mx_psig _ _ Hs); apply/mx_mulP => i j Hi Hj.
  have [h _] := fwdvP nlo V (colof m j) HN HP; have := h i Hi.
  rewrite [(N <= i)%N]leqNgt Hi addr0 big_mkord => ->; by rewrite /colof.
Qed.

(** ** Inverse of an upper triangle with a band *)
Definition outzero (nhi o N : nat) U : Prop :=
  forall i j, (o <= i < o + N)%N -> (o <= j < o + N)%N -> (i + nhi < j)%N -> U i j = 0.

Lemma tbinv_ext unit o N X Y U : (forall i j, X i j = Y i j) ->
  TriInv.binv unit o N X U -> TriInv.binv unit o N Y U.
Proof.
  move=> E [h1 h2]; split=> [i j Hi Hj|i j Hij]; last by rewrite -E h2.
  by rewrite -(h1 i j Hi Hj); apply: eq_bigr => k _; rewrite /upper E.
Qed.

Section Inv.
Variable nb : nat.
Hypothesis nbP : (0 < nb)%N.

Lemma brecinvP fuel unit nhi o N U : (0 < N <= fuel)%N -> outzero nhi o N U ->
  post (fun X => TriInv.binv unit o N X U) (zero_diag unit (o + N) U) (brecinv nb fuel unit nhi o N U).
Proof.
  elim: fuel o N U => [|f IH] o N U Hf HZ; first by lia.
  case: (N =P 1%N) => [E1|N1].
    by have := recinvP nbP unit o U Hf; rewrite /= E1 eqxx.
  rewrite /= ifN; last by apply/eqP.
  have Hk := @halveP nb 1 nbP isT N ltac:(lia); move: Hk; set k := halve nb N => Hk.
  apply: post_bind; apply: (@post_imp _ (fun X => TriInv.binv unit o k X U) _ (zero_diag unit (o + k) U)).
    3: by apply: IH; [lia | move=> i j Hi Hj Hij; apply: HZ; lia].
    2: by move=> e; apply: zero_diag_le; lia.
  move=> U1 Ha; apply: post_bind.
  have Ha2 i j : (o + k <= j)%N -> U1 i j = U i j by case: Ha => _ h Hj; apply: h; case: (unit); lia.
  apply: (@post_imp _ (fun X => TriInv.binv unit (o + k) (N - k) X U1) _ (zero_diag unit (o + k + (N - k)) U1)).
    3: { apply: IH; first by lia. move=> i j Hi Hj Hij; rewrite Ha2; last by lia. apply: HZ; lia. }
    2: by move=> e; apply: (zero_step nbP _ Ha); lia.
  move=> U2 Hb /=; have Hkk : (0 < k < N)%N by lia.
  have := inv_step nbP Hkk Ha Hb; apply: tbinv_ext.
  have Hb2 i j : (i < o + k)%N -> U2 i j = U1 i j by case: Hb => _ h Hj; apply: h; case: (unit); lia.
  have E i j : negmulL unit o k N U2 i j = bnegmulL unit o k (if (nhi < N - k)%N then nhi else N - k)%N U2 i j.
    rewrite /negmulL /bnegmulL; case: ifP => [Hij|Hij]; last by rewrite ifN //; case: ifP => ?; lia.
    case: (ltnP nhi (N - k)%N) => Hn; last by rewrite ifT //; lia.
    case: (ltnP j (o + k + nhi)%N) => Hj; first by rewrite ifT //; lia.
    rewrite ifN; last by lia.
    have Z q : (o <= q < o + k)%N -> U2 q j = 0.
      by move=> Hm; rewrite Hb2 ?Ha2 ?HZ //; lia.
    rewrite (Z i); last by lia. rewrite big1_seq ?oppr0 // => m; rewrite mem_index_iota /= => Hm.
    by rewrite Z ?mulr0 //; lia.
  move=> i j; rewrite /mulR; case: ifP => _; last exact: E.
  by apply: eq_bigr => m _; rewrite /upper !E.
Qed.

Lemma diaginvP N U : outzero 0 0 N U ->
  post (fun X => TriInv.binv false 0 N X U) (zero_diag false N U) (diaginv N U).
Proof.
  move=> HZ; pose I (n : nat) (X : fm F) := (forall i j, X i j = if (i == j) && (i < n)%N then (U i i)^-1 else U i j) /\
     (forall i, (i < n)%N -> U i i != 0).
  apply: (@post_imp _ (I N) _ (zero_diag false N U)) => //.
    move=> X [E E0]; split.
    - move=> i j Hi Hj; rewrite !add0n (@big_cat_nat _ _ _ i) //=; [|lia..].
      rewrite big1_seq ?add0r; last first.
        by move=> k; rewrite mem_index_iota /= => Hk; rewrite upper_gt ?mul0r //; lia.
      rewrite big_ltn; last by lia.
      rewrite big1_seq ?addr0; last first.
        move=> k; rewrite mem_index_iota /= => Hk; rewrite upper_lt; last by lia.
        rewrite HZ ?mul0r //; lia.
      rewrite upper_diag /upper; case: (i =P j) => [<-|Ne].
        by rewrite E eqxx /= ifT ?divff ?E0 //; lia.
      case: ltnP => h; last by rewrite mulr0.
      by rewrite E ifN ?(HZ i j) ?mulr0 //; lia.
    - by move=> i j Hij; rewrite E ifN //; lia.
  apply: (@loop_up_inv _ I).
  - by split=> // i j; rewrite andbF.
  - move=> i X Hi [E E0]; have Ei : X i i = U i i by rewrite E ltnn andbF.
    rewrite Ei; case: eqP => [Z|/eqP Nz] /=.
      by split=> //; split=> //; exists i.
    split=> [r c|r Hr]; last by case: (r =P i) => [->|Ne] //; apply: E0; lia.
    rewrite /updm; case: (r =P i) => [->|Nr] /=.
      case: (c =P i) => [->|Nc] /=; first by rewrite eqxx ltnSn.
      by rewrite E; have -> : (i == c) = false by apply/eqP => h; apply: Nc.
    rewrite E; congr (if _ && _ then _ else _); lia.
Qed.

Lemma BTriInverseP unit N nhi U : (nhi = 0%N -> unit = false) -> outzero nhi 0 N U ->
  post (fun X => TriInv.binv unit 0 N X U) (zero_diag unit N U) (BTriInverse nb unit N nhi U).
Proof.
  move=> Hu HZ; rewrite /BTriInverse; case: posnP => [E0|HN]; first by split=> // i j; lia.
  case: eqP => [E|_]; first by rewrite (Hu E); apply: diaginvP; move: HZ; rewrite E.
  by apply: brecinvP => //; lia.
Qed.
End Inv.

Section Facts.
Variables (N nlo nhi : nat) (A V : fm F) (P : nat -> nat) (s : 'S_N).
Hypotheses (HN : (0 < N)%N) (Hlo : (nlo < N)%N) (Hhi : (nhi < N)%N).
Hypothesis Hf : @blufacts N nlo nhi A V P s.

Let HP k : (k < N)%N -> (k <= P k < N)%N.
Proof. by move=> h; case: Hf => _ I _ _; have := I k h; lia. Qed.
Let Hs (i : 'I_N) : psig P 0 N i = s i :> nat.
Proof. by case: Hf. Qed.
Let HLU : Lof N nlo V P *m Uof N nhi V = row_perm s (mx N N A).
Proof. by case: Hf. Qed.

Lemma P_id : nlo = 0%N -> forall k, (k < N)%N -> P k = k.
Proof. by move=> E k h; case: Hf => _ I _ _; have := I k h; rewrite E; lia. Qed.

Lemma Lof_unit : Lof N nlo V P \in unitmx.
Proof. by rewrite unitmxE Lof_det unitr1. Qed.

(** Forward elimination of A is U. *)
Lemma fwdA : mx N N (fwdm N nlo V P A) = Uof N nhi V.
Proof.
  apply: (can_inj (mulKmx Lof_unit)); rewrite HLU; exact: fwdmP.
Qed.

Lemma PLL K m : mx N K (PackedPL_LDivEq N nlo K V P m) = mx N K (fwdm N nlo V P m) /\
  forall r c, ~~ ((r < N)%N && (c < K)%N) -> PackedPL_LDivEq N nlo K V P m r c = m r c.
Proof.
  case: (posnP nlo) => [E|H0].
    rewrite /PackedPL_LDivEq ifN; last by lia. split=> //.
    apply: mx_ext => i j Hi Hj; rewrite /fwdm E fwdv_id //.
    by move=> k Hk; apply: P_id => //; lia.
  split=> [|r c Hrc].
    by apply: mx_ext => i j Hi Hj; rewrite PackedPL_LDivEqE ?H0 // Hj.
  rewrite PackedPL_LDivEqE ?H0 //; case: ltnP => // Hc.
  have [_ ->] := fwdvP nlo V (colof m c) HN HP; by [|lia].
Qed.

Lemma PLR K m B : mx K N (PackedPL_RDivEq N nlo K V P m) *m mx N N B = mx K N m *m mx N N (fwdm N nlo V P B) /\
  forall r c, ~~ ((r < K)%N && (c < N)%N) -> PackedPL_RDivEq N nlo K V P m r c = m r c.
Proof.
  case: (posnP nlo) => [E|H0].
    rewrite /PackedPL_RDivEq ifN; last by lia. split=> //; congr (_ *m _).
    apply: mx_ext => i j Hi Hj; rewrite /fwdm E fwdv_id //.
    by move=> k Hk; apply: P_id => //; lia.
  have [h1 h2] := @PackedPL_RDivEqP F N nlo K V P m ltac:(lia) HP; split=> //.
  apply/matrixP => i j; rewrite !mxE.
  have := h1 i (colof B j) (ltn_ord i); rewrite !big_mkord => h.
  transitivity (\sum_(k < N) PackedPL_RDivEq N nlo K V P m i k * B k j).
    by apply: eq_bigr => k _; rewrite !mxE.
  rewrite h; apply: eq_bigr => k _; by rewrite !mxE.
Qed.

Variables (nb : nat) (stA stB : stor).
Hypothesis nbP : (0 < nb)%N.

Lemma BLU_LDivEqP K B :
  post (fun X => mx N N A *m mx N K X = mx N K B /\ forall i j, ~~ ((i < N)%N && (j < K)%N) -> X i j = B i j)
       (fun e => e = Singular /\ \det (mx N N A) = 0)
       (BLU_LDivEq stA stB N nlo nhi K V P B).
Proof.
  rewrite /BLU_LDivEq HN /=; case: posnP => [->|HK].
    by split=> //; apply/matrixP => i; case.
  have [E1 E2] := PLL K B.
  have := BTriLDivEqMUP stA stB false N nhi K V (PackedPL_LDivEq N nlo K V P B).
  case: (BTriLDivEqMU _ _ _ _ _ _ _ _) => [X|e|] //=; last by case=> -> [_ h]; split=> //; exact: (bdet0P Hf).
  move=> [/mx_mulP h3 h4]; split; last by move=> i j Hij; rewrite h4 // E2.
  have E : row_perm s (mx N N A *m mx N K X) = row_perm s (mx N K B).
    rewrite !row_permE mulmxA -row_permE -HLU -mulmxA.
    have -> : Uof N nhi V *m mx N K X = mx N K (fwdm N nlo V P B) by rewrite -E1.
    by rewrite -row_permE; apply: fwdmP.
  by move/(congr1 (row_perm s^-1)): E; rewrite -!row_permM !mulVg !row_perm1.
Qed.

Lemma lob_tr : mx N N (lob false nhi (trm V)) = (Uof N nhi V)^T.
Proof.
  apply/matrixP => i j; rewrite !mxE /lob /upb /lower /upper /bandm /trm !addn0.
  rewrite [j == i :> nat]eq_sym; case E1: (i == j :> nat) => //; case E2: (j < i)%N => //; rewrite andbC; congr (if _ && _ then _ else _); lia.
Qed.

Lemma BLU_RDivEqP K B :
  post (fun X => mx K N X *m mx N N A = mx K N B /\ forall i j, ~~ ((i < K)%N && (j < N)%N) -> X i j = B i j)
       (fun e => e = Singular /\ \det (mx N N A) = 0)
       (BLU_RDivEq stA stB N nlo nhi K V P B).
Proof.
  rewrite /BLU_RDivEq HN /=; case: posnP => [->|HK].
    by split=> //; apply/matrixP => -[].
  apply: post_bind.
  have := BTriLDivEqMLP (trst stA) (trst stB) false K (trm V) (trm B) Hhi.
  case: (BTriLDivEqML _ _ _ _ _ _ _ _) => [Y|e|] //=.
    2: by case=> -> [_ h]; split=> //; apply: (bdet0P Hf).
  move=> [/mx_mulP h3 h4].
  have [E1 E2] := PLR K (trm Y) A; split.
    rewrite E1 fwdA trm_mx -[Uof _ _ _]trmxK -trmx_mul -lob_tr.
    by rewrite h3 trm_mx trmxK.
  move=> i j Hij; rewrite E2 // /trm h4 //; by rewrite andbC.
Qed.

Lemma BLU_InverseP M0 :
  post (fun X => [/\ mx N N X *m mx N N A = 1%:M, mx N N A *m mx N N X = 1%:M &
                     forall i j, ~~ ((i < N)%N && (j < N)%N) -> X i j = M0 i j])
       (fun e => e = Singular /\ \det (mx N N A) = 0)
       (BLU_Inverse nb N nlo nhi V P M0).
Proof.
  rewrite /BLU_Inverse HN; set m := invinit _ _ _ _.
  have mE i j : (i < N)%N -> (j < N)%N -> m i j = upb false nhi V i j.
    move=> Hi Hj; rewrite /m /invinit Hi Hj /= /upb /upper; case: (ltngtP i j) => // [h|->] //.
  apply: post_bind.
  have := @BTriInverseP nb nbP false N nhi m (fun _ => erefl) ltac:(by move=> i j Hi Hj Hij; rewrite mE ?upb_out //; lia).
  case: (BTriInverse _ _ _ _ _) => [X|e|] //=; last first.
    case=> -> [_ [i [Hi Z]]]; split=> //; apply: (bdet0P Hf); exists i; split=> //.
    by rewrite -Z mE // upb_d.
  move=> [h1 h2].
  have E1 : Uof N nhi V *m mx N N (upper false X) = 1%:M.
    apply/matrixP => i j; have Hi := ltn_ord i; have Hj := ltn_ord j; rewrite !mxE.
    have := h1 i j ltac:(lia) ltac:(lia); rewrite add0n big_mkord => h; transitivity ((nat_of_ord i == j)%:R : F) => //.
    rewrite -h; apply: eq_bigr => k _; rewrite !mxE; congr (_ * _).
    by rewrite /upper mE // /upb /upper; case: (ltngtP i k).
  have E2 : mx N N (upper false X) = mx N N X.
    apply: mx_ext => i j Hi Hj; rewrite /upper; case: (ltngtP i j) => // h.
    by rewrite h2 ?mE ?upb_gt //; lia.
  rewrite E2 in E1.
  have [R1 R2] := PLR N X A.
  have EX : mx N N (PackedPL_RDivEq N nlo N V P X) *m mx N N A = 1%:M by rewrite R1 fwdA; apply: mulmx1C.
  split=> //; first exact: mulmx1C.
  move=> i j Hij; rewrite R2 // h2; last by lia. rewrite /m /invinit ifN; last by lia. by rewrite ifN.
Qed.
End Facts.
End Proofs.
