(** Division by a square matrix through its LU decomposition:
    src/TMV_LUD.cpp (LUDiv), src/TMV_LUDiv.cpp, src/TMV_LUInverse.cpp. *)
From Verif Require Import Base FMat TriSolve TriInv RowPerm LU LUProofs Claims_Tri.
From mathcomp Require Import all_ssreflect all_fingroup all_algebra zify.
Set Implicit Arguments. Unset Strict Implicit. Unset Printing Implicit Defensive.
Import GRing.Theory Num.Theory Order.Theory.
Local Open Scope ring_scope.

(** The m x n matrix an index function shows. *)
Definition mx (F : Type) (m n : nat) (A : fm F) : 'M[F]_(m, n) := \matrix_(i, j) A i j.

Section Model.
Variable F : numFieldType.
Implicit Types (A B m : fm F) (P : nat -> nat).
Variables nbT nbT2 nb nb2 : nat.
(** Storage orders of the decomposed matrix and of the right-hand side. *)
Variables stA stB : stor.

(** LU_LDivEq, TMV_LUDiv.cpp:186-229 with NonLapLULDivEq, 46-56: P L U x = m, for
    K columns. *)
Definition LU_LDivEq (N K : nat) LUx P m : outcome (fm F) :=
  let m := permrows K P 0 N m in
  bindO (TriLDivEqML nbT nbT2 stA stB true N K LUx m) (fun m =>
  TriLDivEqMU nbT nbT2 stA stB false N K LUx m).

(** LU_RDivEq, 369-411: x P L U = m, for K rows. *)
Definition LU_RDivEq (N K : nat) LUx P m : outcome (fm F) :=
  bindO (TriRDivEqM nbT nbT2 true stA stB false N K LUx m) (fun m =>
  bindO (TriRDivEqM nbT nbT2 false stA stB true N K LUx m) (fun m =>
  Ok (trm (revpermrows K P 0 N (trm m))))).

(** LU_Inverse, TMV_LUInverse.cpp:236-276 with NonLapLUInverse, 43-60. *)
Definition LU_Inverse (N : nat) LUx P : outcome (fm F) :=
  bindO (TriInverse nbT false N LUx) (fun minv =>
  bindO (TriInverseL nbT true N minv) (fun minv =>
  let minv' := fun i j => \sum_(0 <= k < N) upper false minv i k * lower true minv k j in
  Ok (trm (revpermrows N P 0 N (trm minv'))))).

(** LUDiv::LUDiv, TMV_LUD.cpp:70-88: the transpose is decomposed when A is
    row-major.  [P0] is what the new pivot array holds. *)
Definition LUDiv_new (istrans : bool) (N : nat) A P0 : outcome (fm F * (nat -> nat)) :=
  LU_Decompose nbT nbT2 nb nb2 N N (if istrans then trm A else A) P0.

(** The same constructor with its storage decisions (40-88).  [inplace] is the
    argument (m.divideInPlace()), [inpl] the member of the same name; a matrix that
    is not decomposed in place gets a new array, holding [junk]. *)
Definition LUDiv_ctor (iscm isrm inplace : bool) (N : nat) A junk P0 : outcome (fm F * (nat -> nat)) :=
  let istrans := isrm in
  let inpl := inplace && (iscm || isrm) in
  let LUx := if inpl then (if istrans then trm A else A) else junk in
  let LUx := if istrans then (if inpl then LUx else trm A)
             else (if inplace then LUx else A) in
  LU_Decompose nbT nbT2 nb nb2 N N LUx P0.

(** doLDivEq, doRDivEq, doMakeInverse: 92-110, 167-177. *)
Definition doLDivEq (istrans : bool) (N K : nat) LUx P m : outcome (fm F) :=
  if istrans then bindO (LU_RDivEq N K LUx P (trm m)) (fun X => Ok (trm X))
  else LU_LDivEq N K LUx P m.
Definition doRDivEq (istrans : bool) (N K : nat) LUx P m : outcome (fm F) :=
  if istrans then bindO (LU_LDivEq N K LUx P (trm m)) (fun X => Ok (trm X))
  else LU_RDivEq N K LUx P m.
Definition doMakeInverse (istrans : bool) (N : nat) LUx P : outcome (fm F) :=
  if istrans then bindO (LU_Inverse N LUx P) (fun X => Ok (trm X)) else LU_Inverse N LUx P.

(** Permutation::det on a pivot array (TMV_Permutation.h, det(); see C03), and the
    product LUDiv::det forms from it and the diagonal, 139-150 (computed there
    as sign * exp(sum of logs), see C23_logdet). *)
Definition pivsign (N : nat) P : F := (-1) ^+ (count (fun k => P k != k) (iota 0 N)).
Definition LUdet (N : nat) LUx P : F := pivsign N P * \prod_(0 <= i < N) LUx i i.

(** isSingular, 219-223: minAbs2Element <= eps * maxAbs2Element of the diagonal.
    (For real elements abs2 is the absolute value; for complex ones |re|+|im|,
    which also is zero only at zero: any such function [abs2].) *)
Definition minabs (abs2 : F -> F) (d : seq F) : F := foldl (fun b x => if abs2 x < b then abs2 x else b) (abs2 (head 0 d)) d.
Definition maxabs (abs2 : F -> F) (d : seq F) : F := foldl (fun b x => if b < abs2 x then abs2 x else b) (abs2 (head 0 d)) d.
Definition isSingular (abs2 : F -> F) (eps : F) (N : nat) LUx : bool :=
  let d := [seq LUx i i | i <- iota 0 N] in minabs abs2 d <= eps * maxabs abs2 d.
End Model.

Section Proofs.
Variable F : numFieldType.
Implicit Types (A B m X Y : fm F) (P : nat -> nat).

Lemma mx_ext M N A B : (forall i j, (i < M)%N -> (j < N)%N -> A i j = B i j) -> mx M N A = mx M N B.
Proof. by move=> h; apply/matrixP => i j; rewrite !mxE h. Qed.

Lemma mx_mulE M N K A B i j (Hi : (i < M)%N) (Hj : (j < K)%N) :
  (mx M N A *m mx N K B) (Ordinal Hi) (Ordinal Hj) = \sum_(k < N) A i k * B k j.
Proof. by rewrite mxE; apply: eq_bigr => k _; rewrite !mxE. Qed.

Lemma mx_mulP M N K A B C :
  (forall i j, (i < M)%N -> (j < K)%N -> \sum_(k < N) A i k * B k j = C i j) <->
  mx M N A *m mx N K B = mx M K C.
Proof.
  split=> [h|h i j Hi Hj].
  - by apply/matrixP => i j; rewrite !mxE -h //; apply: eq_bigr => k _; rewrite !mxE.
  - by move/matrixP/(_ (Ordinal Hi) (Ordinal Hj)): h; rewrite mx_mulE mxE.
Qed.

Lemma trm_mx M N A : mx N M (trm A) = (mx M N A)^T.
Proof. by apply/matrixP => i j; rewrite !mxE. Qed.

(** The pivots as a permutation. *)
Lemma psig_perm N P lo n : (forall k, (lo <= k < lo + n)%N -> (k < N)%N /\ (P k < N)%N) ->
  exists s : 'S_N, (forall i : 'I_N, psig P lo n i = s i :> nat) /\
                   odd_perm s = odd (count (fun k => P k != k) (iota lo n)).
Proof.
  elim: n => [|n IH] H; first by exists 1%g; split=> [i|]; rewrite ?perm1 ?odd_perm1.
  have [s [Hs Ho]] : exists s : 'S_N, (forall i : 'I_N, psig P lo n i = s i :> nat) /\
                   odd_perm s = odd (count (fun k => P k != k) (iota lo n)).
    by apply: IH => k Hk; apply: H; lia.
  have [h1 h2] : ((lo + n)%N < N)%N /\ (P (lo + n)%N < N)%N by apply: H; lia.
  exists (tperm (Ordinal h1) (Ordinal h2) * s)%g; split.
  - move=> i; rewrite permM -Hs psigS; congr (psig _ _ _ _).
    rewrite /tsw; case: tpermP => [->|->|/eqP N1 /eqP N2] /=; first by rewrite eqxx.
      by case: eqP => [->|]; rewrite ?eqxx.
    by rewrite -(inj_eq val_inj) in N1; rewrite -(inj_eq val_inj) in N2; rewrite (negPf N1) (negPf N2).
  - rewrite odd_permM odd_tperm -(addn1 n) iotaD count_cat oddD Ho addbC; congr (_ (+) _).
    by rewrite /= addn0 -(inj_eq val_inj) /= eq_sym; case: eqP.
Qed.

Lemma mx_psig N K P n A (s : 'S_N) : (forall i : 'I_N, psig P 0 n i = s i :> nat) ->
  mx N K (fun i j => A (psig P 0 n i) j) = row_perm s (mx N K A).
Proof. by move=> h; apply/matrixP => i j; rewrite !mxE h. Qed.

Lemma lowdet N A : \det (mx N N (lower true A)) = 1.
Proof.
  rewrite det_trig; last first.
    by apply/is_trig_mxP => i j h; rewrite mxE lower_out.
  by rewrite big1 // => i _; rewrite mxE lower_d.
Qed.
Lemma updet N A : \det (mx N N (upper false A)) = \prod_(0 <= i < N) A i i.
Proof.
  rewrite -det_tr det_trig; last first.
    by apply/is_trig_mxP => i j h; rewrite !mxE upper_out.
  by rewrite big_mkord; apply: eq_bigr => i _; rewrite !mxE upper_in.
Qed.

(** What a decomposition of a square matrix gives, in matrix form. *)
Definition lufacts (N : nat) A LUx P (s : 'S_N) : Prop :=
  [/\ forall i : 'I_N, psig P 0 N i = s i :> nat,
      forall k, (k < N)%N -> (k <= P k < N)%N,
      mx N N (lower true LUx) *m mx N N (upper false LUx) = row_perm s (mx N N A)
    & \det (mx N N A) = LUdet N LUx P].

Lemma luspec_facts N A P0 LUx P : luspec N N A P0 LUx P -> exists s, @lufacts N A LUx P s.
Proof.
  rewrite /luspec minnn => -[I1 I2 I4 _].
  have [s [Hs Ho]] := @psig_perm N P 0 N ltac:(by move=> k Hk; have := I1 k; lia).
  exists s.
  have E : mx N N (lower true LUx) *m mx N N (upper false LUx) = row_perm s (mx N N A).
    rewrite -(mx_psig _ _ Hs); apply/mx_mulP => i j Hi Hj; rewrite -I2 //.
    by rewrite -(big_mkord xpredT (fun k => lower true LUx i k * upper false LUx k j)).
  split=> //.
  have := congr1 determinant E; rewrite det_mulmx lowdet updet mul1r row_permE det_mulmx det_perm Ho => E2.
  rewrite /LUdet /pivsign E2 mulrA signr_odd -exprD.
  by rewrite -signr_odd oddD addbb expr0 mul1r.
Qed.

Section Blocks.
Variables nbT nbT2 nb nb2 : nat.
Variables stA stB : stor.
Hypotheses (nbTP : (0 < nbT)%N) (nbT2P : (0 < nbT2)%N) (nbP : (0 < nb)%N) (nb2P : (0 < nb2)%N).

Lemma det0P N A LUx P s : @lufacts N A LUx P s ->
  (exists i, (i < N)%N /\ LUx i i = 0) -> \det (mx N N A) = 0.
Proof.
  move=> [_ _ _ ->] [i [Hi E]]; rewrite /LUdet big_mkord (bigD1 (Ordinal Hi)) //= E mul0r mulr0 //.
Qed.

Lemma LU_LDivEqP N K A LUx P s B : @lufacts N A LUx P s ->
  post (fun X => mx N N A *m mx N K X = mx N K B /\ forall i j, ~~ ((i < N)%N && (j < K)%N) -> X i j = B i j)
       (fun e => e = Singular /\ \det (mx N N A) = 0)
       (LU_LDivEq nbT nbT2 stA stB N K LUx P B).
Proof.
  move=> Hf; have [Hs HP HLU _] := Hf.
  rewrite /LU_LDivEq; apply: post_bind.
  have := TriLDivEqMLP nbTP nbT2P stA stB true N K LUx (permrows K P 0 N B).
  case: (TriLDivEqML _ _ _ _ _ _ _ _ _) => [Y|e|] //=; last by case=> _ [].
  move=> [/mx_mulP h1 h2].
  have := TriLDivEqMUP nbTP nbT2P stA stB false N K LUx Y.
  case: (TriLDivEqMU _ _ _ _ _ _ _ _ _) => [X|e|] //=; last by case=> -> [_ h]; split=> //; exact: (det0P Hf).
  move=> [/mx_mulP h3 h4]; split.
  - have E : row_perm s (mx N N A *m mx N K X) = row_perm s (mx N K B).
      rewrite !row_permE mulmxA -row_permE -HLU -mulmxA h3 h1 -row_permE.
      by apply/matrixP => i j; rewrite !mxE permrowsE ltn_ord Hs.
    by move/(congr1 (row_perm s^-1)): E; rewrite -!row_permM !mulVg !row_perm1.
  - move=> i j Hij; rewrite h4 // h2 // permrowsE; case: ltnP => // Hj.
    rewrite (@psig_out N) //; last by lia. by move=> k Hk; have := HP k; lia.
Qed.

Lemma revcols N K P A (s : 'S_N) (V : fm F) :
  (forall i : 'I_N, psig P 0 N i = s i :> nat) ->
  mx K N V *m row_perm s (mx N N A) = mx K N (trm (revpermrows K P 0 N (trm V))) *m mx N N A.
Proof.
  move=> Hs; set W := trm (revpermrows _ _ _ _ _).
  have E : mx K N V = col_perm s (mx K N W).
    apply/matrixP => i j; rewrite !mxE -Hs.
    have := revpermrowsK K P 0 N (trm V) j i; rewrite permrowsE ltn_ord /trm => <-.
    by rewrite /W /trm.
  rewrite E; apply/matrixP => i j; rewrite !mxE [RHS](reindex_inj (@perm_inj _ s)) /=.
  by apply: eq_bigr => k _; rewrite !mxE.
Qed.

Lemma LU_RDivEqP N K A LUx P s B : @lufacts N A LUx P s ->
  post (fun X => mx K N X *m mx N N A = mx K N B /\ forall i j, ~~ ((i < K)%N && (j < N)%N) -> X i j = B i j)
       (fun e => e = Singular /\ \det (mx N N A) = 0)
       (LU_RDivEq nbT nbT2 stA stB N K LUx P B).
Proof.
  move=> Hf; have [Hs HP HLU _] := Hf.
  rewrite /LU_RDivEq; apply: post_bind.
  have := C26_matrix_right true stA stB false N K LUx B nbTP nbT2P.
  case: (TriRDivEqM _ _ _ _ _ _ _ _ _ _) => [Y|e|] //=; last by case=> -> [_ h]; split=> //; exact: (det0P Hf).
  move=> [/mx_mulP h1 h2]; apply: post_bind.
  have := C26_matrix_right false stA stB true N K LUx Y nbTP nbT2P.
  case: (TriRDivEqM _ _ _ _ _ _ _ _ _ _) => [V|e|] //=; last by case=> _ [].
  move=> [/mx_mulP h3 h4]; split.
  - by rewrite -(revcols _ _ _ Hs) -HLU mulmxA h3 h1.
  - move=> i j Hij; rewrite -h2 // -h4 // /trm.
    have := revpermrowsK K P 0 N (trm V) j i; rewrite permrowsE; case: ltnP => //= Hi.
    rewrite (@psig_out N) //; last by lia. by move=> k Hk; have := HP k; lia.
Qed.

Lemma LU_InverseP N A LUx P s : @lufacts N A LUx P s ->
  post (fun X => mx N N X *m mx N N A = 1%:M /\ mx N N A *m mx N N X = 1%:M)
       (fun e => e = Singular /\ \det (mx N N A) = 0)
       (LU_Inverse nbT N LUx P).
Proof.
  move=> Hf; have [Hs HP HLU _] := Hf.
  rewrite /LU_Inverse; apply: post_bind.
  have := C26_inverse false N LUx nbTP.
  case: (TriInverse _ _ _ _) => [V|e|] //=; last by case=> -> [_ h]; split=> //; exact: (det0P Hf).
  move=> [h1 h2]; apply: post_bind.
  have := C26_inverse_lower true N V nbTP.
  case: (TriInverseL _ _ _ _) => [W|e|] //=; last by case=> _ [].
  move=> [h3 h4].
  have HU : mx N N (upper false W) *m mx N N (upper false LUx) = 1%:M.
    apply/matrixP => i j; rewrite !mxE; have [_ <-] := h1 i j (ltn_ord i) (ltn_ord j).
    apply: eq_bigr => k _; rewrite !mxE; congr (_ * _).
    rewrite /upper; case: eqP => [E|Ne]; first by rewrite h4 //; lia.
    by case: ltnP => // h; rewrite h4 //; lia.
  have HL : mx N N (lower true W) *m mx N N (lower true LUx) = 1%:M.
    apply/matrixP => i j; rewrite !mxE; have [_ <-] := h3 i j (ltn_ord i) (ltn_ord j).
    apply: eq_bigr => k _; rewrite !mxE; congr (_ * _).
    rewrite /lower; case: eqP => [//|Ne]; case: ltnP => // h; rewrite h2 //; lia.
  set V' := fun i j => _.
  have EV : mx N N V' = mx N N (upper false W) *m mx N N (lower true W).
    by apply/matrixP => i j; rewrite !mxE /V' big_mkord; apply: eq_bigr => k _; rewrite !mxE.
  have E : mx N N (trm (revpermrows N P 0 N (trm V'))) *m mx N N A = 1%:M.
    rewrite -(revcols _ _ _ Hs) -HLU EV !mulmxA -(mulmxA (mx N N (upper false W))) HL mulmx1 HU //.
  by split=> //; apply: mulmx1C.
Qed.

Section Sing.
Variables (abs2 : F -> F) (eps : F).
Hypotheses (abs2_ge0 : forall x, 0 <= abs2 x) (abs2_0 : abs2 0 = 0) (eps_ge0 : 0 <= eps).

Lemma minabs_le d b x : 0 <= b -> x \in d -> foldl (fun b x => if abs2 x < b then abs2 x else b) b d <= abs2 x.
Proof.
  have mono : forall d b, 0 <= b -> foldl (fun b x => if abs2 x < b then abs2 x else b) b d <= b.
    elim=> [//|y d' IH] b' Hb /=; case: ifP => h; last exact: IH.
    by apply: le_trans (IH _ (abs2_ge0 y)) (ltW h).
  elim: d b => [//|y d IH] b Hb; rewrite inE => /orP [/eqP ->|Hx] /=.
  - case: ifP => h; first exact: mono.
    apply: le_trans (mono _ _ Hb) _.
    by rewrite real_leNgt ?ger0_real // h.
  - by apply: IH => //; case: ifP.
Qed.
Lemma maxabs_ge0 d b : 0 <= b -> 0 <= foldl (fun b x => if b < abs2 x then abs2 x else b) b d.
Proof. by elim: d b => [//|y d IH] b Hb /=; apply: IH; case: ifP. Qed.

Lemma isSingularP N LUx : (exists i, (i < N)%N /\ LUx i i = 0) -> isSingular abs2 eps N LUx.
Proof.
  move=> [i [Hi E]]; rewrite /isSingular.
  apply: (@le_trans _ _ 0); last by apply: mulr_ge0 => //; apply: maxabs_ge0.
  rewrite -abs2_0; apply: minabs_le => //.
  by apply/mapP; exists i => //; rewrite mem_iota.
Qed.
End Sing.

Lemma LUDiv_newP (istrans : bool) N A P0 :
  post (fun S => exists s, @lufacts N (if istrans then trm A else A) S.1 S.2 s) (fun _ => False)
       (LUDiv_new nbT nbT2 nb nb2 istrans N A P0).
Proof.
  apply: (post_imp _ _ (LU_DecomposeP nbTP nbT2P nbP nb2P (if istrans then trm A else A) P0 (leqnn N))) => //.
  by move=> [L P] /= /luspec_facts.
Qed.
End Blocks.
End Proofs.
