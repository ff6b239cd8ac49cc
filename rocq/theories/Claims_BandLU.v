(** C34, C44, C45: LU decomposition of band matrices, division through it, and
    the inverse of A^dagger A through LU decompositions. *)
From mathcomp Require Import all_ssreflect all_fingroup all_algebra zify.
From Verif Require Import Base FMat TriSolve TriInv RowPerm LU LUProofs LUDiv QRProofs BandTri BandLU BandLUDiv LUATA.
Set Implicit Arguments. Unset Strict Implicit. Unset Printing Implicit Defensive.
Import GRing.Theory Num.Theory Order.Theory.
Local Open Scope ring_scope.

(** ** C34 *)

(** The matrix a band matrix stands for: zero outside the nlo + 1 + nhi diagonals. *)
Definition band_of (F : ringType) (nlo nhi : nat) (A : fm F) : fm F :=
  fun i j => if (i <= j + nlo)%N && (j <= i + nhi)%N then A i j else 0.

(** Entries of L*U: L unit lower triangular as unpacked by getL (its strictly lower
    part [L]), U the upper band. *)
Definition LtimesBandU (F : ringType) (N nhi : nat) (L V : fm F) : fm F :=
  fun i j => \sum_(k < N) (if (k < i)%N then L i k else if k == i :> nat then 1 else 0) *
                          (if (k <= j <= k + nhi)%N then V k j else 0).

(** P*L*U = A, pivots in range and at most nlo rows away, multipliers of absolute
    value at most 1, nothing outside the nlo, nhi band changed. *)
Definition is_bandPLU (F : numFieldType) (N nlo hi0 nhi : nat) (A V : fm F) (P : nat -> nat) : Prop :=
  [/\ forall k, (k < N)%N -> (k <= P k < N)%N && (P k <= k + nlo)%N,
      forall i j, (i < N)%N -> (j < N)%N ->
        revpermrows N P 0 N (LtimesBandU N nhi (PackedPL_Unpack N nlo V P) V) i j = band_of nlo hi0 A i j
    & forall k i, (k < N)%N -> (k < i <= k + nlo)%N -> (i < N)%N -> `|V i k| <= 1].

Lemma unpack_unpk (F : numFieldType) N nlo (V : fm F) P i k : PackedPL_Unpack N nlo V P i k = unpk N nlo V P N i k.
Proof. by rewrite /PackedPL_Unpack; case: eqP => [->|//]; rewrite unpk0. Qed.

Lemma bspec_PLU (F : numFieldType) N nlo hi0 nhi (A0 A : fm F) P0 V P :
  (forall i j, (i < N)%N -> (j < N)%N -> bandm nlo hi0 A0 i j = bandm nlo hi0 A i j) ->
  bspec N nlo hi0 nhi A0 P0 V P -> is_bandPLU N nlo hi0 nhi A V P.
Proof.
  move=> HA [I1 I2 I3 _]; split=> //; last by move=> k i Hk Hi Hi'; apply: I3 => //; lia.
  move=> i j Hi Hj; rewrite -[RHS](permrowsK N P 0 N (band_of nlo hi0 A) i j).
  have H k : (k < N)%N -> LtimesBandU N nhi (PackedPL_Unpack N nlo V P) V k j = permrows N P 0 N (band_of nlo hi0 A) k j.
    move=> Hk; rewrite permrowsE Hj /band_of.
    have Hp : (psig P 0 N k < N)%N by apply: psig_lt => // q Hq; have := I1 q; lia.
    have := HA _ _ Hp Hj; rewrite {2}/bandm => <-; rewrite -I2 // /LtimesBandU big_mkord; apply: eq_bigr => c _.
    rewrite /lower /upper /bandm unpack_unpk; congr (_ * _); first by case: ltngtP.
    by case: ltngtP => //= h; rewrite ?addn0 ?(ltnW h) ?h ?leqnn ?leq_addr //.
  move: I1; rewrite /revpermrows => I1.
  have: forall k, k \in rev (iota 0 N) -> (k < N)%N /\ (P k < N)%N.
    by move=> k; rewrite mem_rev mem_iota => Hk; have := I1 k; lia.
  elim: (rev _) (LtimesBandU N nhi (PackedPL_Unpack N nlo V P) V) (permrows N P 0 N (band_of nlo hi0 A)) H => [|x s IH] B D H Hs /=; first exact: H.
  apply: IH => [k Hk|k Hk]; last by apply: Hs; rewrite inE Hk orbT.
  rewrite /swaprows Hj; apply: H; have [h1 h2] := Hs x (mem_head _ _).
  exact: tsw_lt.
Qed.

(** LU_Decompose of a band matrix whose extra superdiagonals are zero, in the two
    storages it accepts.  UB would be an access outside the allocated band. *)
Theorem C34_decompose (F : numFieldType) (iscm : bool) (N nlo hi0 : nat) (A : fm F) (P0 : nat -> nat) :
  (nlo < N)%N -> (hi0 < N)%N -> iscm || (nlo == 1%N) && (hi0 == 1%N) ->
  let nhi := minn (nlo + hi0) N.-1 in
  (forall i j, (i < N)%N -> (j < N)%N -> (i + hi0 < j <= i + nhi)%N -> A i j = 0) ->
  match BandLU_Decompose iscm N nlo nhi A P0 with
  | Ok (V, P) => is_bandPLU N nlo hi0 nhi A V P /\
                 (forall i j, ~~ [&& (i < N)%N, (j < N)%N, (i <= j + nlo)%N & (j <= i + nhi)%N] -> V i j = A i j) /\
                 (forall k, (N <= k)%N -> P k = P0 k)
  | _ => False
  end.
Proof.
  move=> h1 h2 h3 nhi h4; have := BandLU_DecomposeP P0 h1 h2 erefl h3 h4; rewrite -/nhi.
  case: (BandLU_Decompose _ _ _ _ _ _) => [[V P]|e|] //= H.
  by split; [apply: bspec_PLU H | case: H].
Qed.
Print Assumptions C34_decompose.

(** The dividers' constructor, from the matrix to the decomposition: nothing that the
    new memory held matters.  b.lud().isTrans() says which of A and A^T is P*L*U. *)
Theorem C34_constructor (F : numFieldType) (isrm iscm isdm inplace : bool) (N nlo nhi : nat) (A junk : fm F) :
  (nlo < N)%N -> (nhi < N)%N -> (inplace -> bl_inplace nlo nhi isrm iscm isdm inplace) ->
  match BandLUDiv_ctor isrm iscm isdm inplace N nlo nhi A junk with
  | Ok (V, P) => is_bandPLU N (minn nlo nhi) (maxn nlo nhi) (minn (nlo + nhi) N.-1)
                   (if bl_trans nlo nhi isrm then trm A else A) V P
  | _ => False
  end.
Proof.
  move=> h1 h2 h3; have := BandLUDiv_ctorP A junk h1 h2 h3.
  case: (BandLUDiv_ctor _ _ _ _ _ _ _ _ _) => [[V P]|e|] //= [A0 [HA]]; exact: bspec_PLU.
Qed.
Print Assumptions C34_constructor.

(** With inplace() asked for and a matrix that cannot be decomposed in place (column
    major with more sub- than superdiagonals, row major with more super- than
    subdiagonals, ...), new memory is decomposed that nothing was copied to.  When
    it happens to hold zeros, the determinant of every matrix is 0. *)
Theorem C34_constructor_inplace_refuted (F : numFieldType) (isrm iscm isdm : bool) (N nlo nhi : nat) (A : fm F) :
  (nlo < N)%N -> (nhi < N)%N -> ~~ bl_inplace nlo nhi isrm iscm isdm true ->
  match BandLUDiv_ctor isrm iscm isdm true N nlo nhi A (fun _ _ => 0) with
  | Ok (V, P) => LUdet N V P = 0
  | _ => False
  end.
Proof.
  move=> h1 h2 h3.
  have := @BandLUDiv_ctorP F isrm iscm isdm false N nlo nhi (fun _ _ => 0) (fun _ _ => 0) h1 h2 ltac:(by []).
  have Hlo : (bl_lo nlo nhi == 0%N) = false by apply/negbTE/negP => e; move: h3; rewrite /bl_inplace e.
  have -> : BandLUDiv_ctor isrm iscm isdm true N nlo nhi A (fun _ _ => 0) = 
            BandLU_Decompose (~~ bl_trid nlo nhi) N (bl_lo nlo nhi) (bl_hi N nlo nhi)
              (fun i j => if inb N (bl_lo nlo nhi) (bl_hi N nlo nhi) i j && (i + maxn nlo nhi < j)%N then 0 else 0) id.
    rewrite /BandLUDiv_ctor (negPf h3).
    have -> : (if bl_trans nlo nhi isrm then nhi else nlo) = bl_lo nlo nhi.
      by rewrite /bl_trans /bl_lo; case: ifP; case: (isrm); lia.
    have -> : (if bl_trans nlo nhi isrm then nlo else nhi) = maxn nlo nhi.
      by rewrite /bl_trans; case: ifP; case: (isrm); lia.
    by rewrite lt0n Hlo.
  move=> _.
  have HD : ~~ bl_trid nlo nhi || (bl_lo nlo nhi == 1%N) && (maxn nlo nhi == 1%N).
    by rewrite /bl_trid /bl_lo; lia.
  set Z := (fun i j => if _ then _ else _).
  have HZ i j : Z i j = 0 by rewrite /Z if_same.
  have H1 : (bl_lo nlo nhi < N)%N by rewrite /bl_lo; lia.
  have H2 : (maxn nlo nhi < N)%N by lia.
  have H3 : bl_hi N nlo nhi = minn (bl_lo nlo nhi + maxn nlo nhi) N.-1 by rewrite /bl_hi /bl_lo; lia.
  have := @BandLU_DecomposeP F _ N (bl_lo nlo nhi) (maxn nlo nhi) (bl_hi N nlo nhi) Z id H1 H2 H3 HD (fun i c _ _ _ => HZ i c).
  case: (BandLU_Decompose _ _ _ _ _ _) => [[V P]|e|] //= H.
  have Hb i j : (i < N)%N -> (j < N)%N -> bandm (bl_lo nlo nhi) (maxn nlo nhi) Z i j = (fun _ _ => 0 : F) i j.
    by move=> _ _; rewrite /bandm HZ if_same.
  have [s [_ _ _ <-]] := bspec_facts Hb H.
  have N0 : (0 < N)%N by lia.
  rewrite (expand_det_row _ (Ordinal N0)) big1 // => j _; by rewrite mxE mul0r.
Qed.
Print Assumptions C34_constructor_inplace_refuted.
Example C34_inplace_example : ~~ bl_inplace 2 1 false true false true.
Proof. by []. Qed.

(** LU_Decompose(A,L,U,P), when the band it creates fits into the matrix. *)
Theorem C34_full_partial (F : numFieldType) (N nlo nhi : nat) (A junk : fm F) :
  (0 < N)%N -> (nlo + nhi < N)%N ->
  match BandLU_full N nlo nhi A junk with
  | Ok (V, P) => is_bandPLU N nlo nhi (nlo + nhi) A V P
  | _ => False
  end.
Proof.
  move=> HN Hn; rewrite /BandLU_full; set B := fun i j => _.
  have E : (nlo + nhi)%N = minn (nlo + nhi) N.-1 by lia.
  have := @BandLU_DecomposeP F true N nlo nhi (nlo + nhi) B id ltac:(lia) ltac:(lia) E isT _.
  have HZ i c : (i < N)%N -> (c < N)%N -> (i + nhi < c <= i + (nlo + nhi))%N -> B i c = 0.
    by move=> Hi Hc Hic; rewrite /B ifN ?ifT // /inb Hi Hc; lia.
  move=> H; move: (H HZ); case: (BandLU_Decompose _ _ _ _ _ _) => [[V P]|e|] //=.
  by apply: bspec_PLU => i j Hi Hj; rewrite /bandm; case: ifP => // Hb; rewrite /B ifT // /inb Hi Hj.
Qed.
Print Assumptions C34_full_partial.

(** The band it creates is not cut off at N-1: for a 2 x 2 tridiagonal matrix the
    element (0,2) is accessed, which is outside the array. *)
Theorem C34_full_refuted (F : numFieldType) (A junk : fm F) : BandLU_full 2 1 1 A junk = UB.
Proof.
  rewrite /BandLU_full /BandLU_Decompose /= /NonLapBandLU /= /loop /bstep /=.
  by case: ifP => _ //=; case: ifP => _ //=; case: ifP.
Qed.
Print Assumptions C34_full_refuted.

(** Concrete cases: a 3 x 3 tridiagonal matrix meets the hypotheses; the result for
    ((0,1),(1,0)), where rows are exchanged, in both storages. *)
Example C34_example_hyps (F : numFieldType) (a b c d e f g : F) :
  let A : fm F := fun i j => nth 0 (nth [::] [:: [:: a; b; 0]; [:: c; d; e]; [:: 0; f; g]] i) j in
  forall i j, (i < 3)%N -> (j < 3)%N -> (i + 1 < j <= i + minn (1 + 1) 3.-1)%N -> A i j = 0.
Proof. by move=> A [|[|[|i]]] [|[|[|j]]]. Qed.
Example C34_example (F : numFieldType) (iscm : bool) :
  match BandLU_Decompose iscm 2 1 1 (fun i j => (i != j)%:R : F) id with
  | Ok (V, P) => [/\ P 0%N = 1%N /\ P 1%N = 1%N, V 0%N 0%N = 1, V 0%N 1%N = 0, V 1%N 0%N = 0 & V 1%N 1%N = 1]
  | _ => False
  end.
Proof.
  rewrite /BandLU_Decompose; case: iscm.
  - rewrite /NonLapBandLU /= /loop /= /bstep /amax /= normr0 normr1 ltr01 normr1 oner_eq0 /= /swapseg /tsw /= oner_eq0 /=.
    by split=> //; rewrite /rank1sub /divcol /= ?mul0r ?mulr0 ?subr0.
  - rewrite /NonLapTriDiagLU /= /loop /= /tstep /= normr0 normr1 ltr01 /= /swapseg /tsw /= oner_eq0 /=.
    by split=> //; rewrite /updm /= ?mul0r ?mulr0 ?subr0.
Qed.

(** ** C44: division, inverse, determinant and singularity, from the matrix to the
    answer, for every storage and every bandwidth. *)
Section C44.
Variables (F : numFieldType) (stA stB : stor).
Variables (isrm iscm isdm inplace : bool) (N nlo nhi : nat) (A junk : fm F).
Hypotheses (Hlo : (nlo < N)%N) (Hhi : (nhi < N)%N)
  (Hin : inplace -> bl_inplace nlo nhi isrm iscm isdm inplace).
Let istrans := bl_trans nlo nhi isrm.
Let lo := minn nlo nhi.
Let hi := minn (nlo + nhi) N.-1.
(** The N x N matrix divided by. *)
Let Amx : 'M[F]_N := mx N N (band_of nlo nhi A).

Lemma ctor_facts :
  post (fun S => exists s, @blufacts F N lo hi (if istrans then trm (band_of nlo nhi A) else band_of nlo nhi A) S.1 S.2 s)
       (fun _ => False) (BandLUDiv_ctor isrm iscm isdm inplace N nlo nhi A junk).
Proof.
  apply: post_imp (BandLUDiv_ctorP A junk Hlo Hhi Hin) => // S [A0 [HA HS]].
  apply: bspec_facts HS => i j Hi Hj; rewrite HA // /bandm /band_of /istrans /trm.
  rewrite /bl_lo; case E: (bl_trans nlo nhi isrm); case: ifP => h; case: ifP => h' //; exfalso;
    move: E h h'; rewrite /bl_trans; case: (isrm); lia.
Qed.

Lemma Hlo' : (lo < N)%N. Proof. by rewrite /lo; lia. Qed.
Lemma Hhi' : (hi < N)%N. Proof. by rewrite /hi; lia. Qed.
Lemma HN' : (0 < N)%N. Proof. by lia. Qed.

Theorem C44_left_division (K : nat) (B : fm F) :
  match BandLUDiv_ctor isrm iscm isdm inplace N nlo nhi A junk with
  | Ok (V, P) =>
    match bdoLDivEq stA stB istrans N lo hi K V P B with
    | Ok X => Amx *m mx N K X = mx N K B /\ (forall i j, ~~ ((i < N)%N && (j < K)%N) -> X i j = B i j)
    | Throw e => e = Singular /\ \det Amx = 0
    | UB => False
    end
  | _ => False
  end.
Proof.
  have := ctor_facts; case: (BandLUDiv_ctor _ _ _ _ _ _ _ _ _) => [[V P]|e|] //= [s Hs]; rewrite /bdoLDivEq.
  move: Hs; case: (istrans) => Hs; last first.
    by have := BLU_LDivEqP HN' Hlo' Hhi' Hs stA stB K B; case: (BLU_LDivEq _ _ _ _ _ _ _ _ _).
  have := BLU_RDivEqP HN' Hlo' Hhi' Hs stA stB K (trm B); case: (BLU_RDivEq _ _ _ _ _ _ _ _ _) => [X|e|] //=.
    move=> [E1 E2]; split; last by move=> i j Hij; rewrite /trm E2 // andbC.
    by rewrite (trm_mx _ _ X); move/(congr1 trmx): E1; rewrite trmx_mul (trm_mx _ _ (band_of nlo nhi A)) (trm_mx _ _ B) !trmxK.
  by move=> [-> h]; split=> //; rewrite /Amx -det_tr -(trm_mx _ _ (band_of nlo nhi A)).
Qed.

Theorem C44_right_division (K : nat) (B : fm F) :
  match BandLUDiv_ctor isrm iscm isdm inplace N nlo nhi A junk with
  | Ok (V, P) =>
    match bdoRDivEq stA stB istrans N lo hi K V P B with
    | Ok X => mx K N X *m Amx = mx K N B /\ (forall i j, ~~ ((i < K)%N && (j < N)%N) -> X i j = B i j)
    | Throw e => e = Singular /\ \det Amx = 0
    | UB => False
    end
  | _ => False
  end.
Proof.
  have := ctor_facts; case: (BandLUDiv_ctor _ _ _ _ _ _ _ _ _) => [[V P]|e|] //= [s Hs]; rewrite /bdoRDivEq.
  move: Hs; case: (istrans) => Hs; last first.
    by have := BLU_RDivEqP HN' Hlo' Hhi' Hs stA stB K B; case: (BLU_RDivEq _ _ _ _ _ _ _ _ _).
  have := BLU_LDivEqP HN' Hlo' Hhi' Hs stA stB K (trm B); case: (BLU_LDivEq _ _ _ _ _ _ _ _ _) => [X|e|] //=.
    move=> [E1 E2]; split; last by move=> i j Hij; rewrite /trm E2 // andbC.
    by rewrite (trm_mx _ _ X); move/(congr1 trmx): E1; rewrite trmx_mul (trm_mx _ _ (band_of nlo nhi A)) (trm_mx _ _ B) !trmxK.
  by move=> [-> h]; split=> //; rewrite /Amx -det_tr -(trm_mx _ _ (band_of nlo nhi A)).
Qed.

Theorem C44_inverse (nb : nat) (M0 : fm F) : (0 < nb)%N ->
  match BandLUDiv_ctor isrm iscm isdm inplace N nlo nhi A junk with
  | Ok (V, P) =>
    match bdoMakeInverse nb istrans N lo hi V P M0 with
    | Ok X => [/\ mx N N X *m Amx = 1%:M, Amx *m mx N N X = 1%:M &
                  forall i j, ~~ ((i < N)%N && (j < N)%N) -> X i j = M0 i j]
    | Throw e => e = Singular /\ \det Amx = 0
    | UB => False
    end
  | _ => False
  end.
Proof.
  move=> nbP; have := ctor_facts; case: (BandLUDiv_ctor _ _ _ _ _ _ _ _ _) => [[V P]|e|] //= [s Hs]; rewrite /bdoMakeInverse.
  move: Hs; case: (istrans) => Hs; last first.
    by have := BLU_InverseP HN' Hlo' Hhi' Hs nbP M0; case: (BLU_Inverse _ _ _ _ _ _ _).
  have := BLU_InverseP HN' Hlo' Hhi' Hs nbP (trm M0); case: (BLU_Inverse _ _ _ _ _ _ _) => [X|e|] //=.
    move=> [E1 E2 E3]; split; last by move=> i j Hij; rewrite /trm E3 // andbC.
    - by rewrite (trm_mx _ _ X); move/(congr1 trmx): E2; rewrite trmx_mul (trm_mx _ _ (band_of nlo nhi A)) !trmxK trmx1.
    - by rewrite (trm_mx _ _ X); move/(congr1 trmx): E1; rewrite trmx_mul (trm_mx _ _ (band_of nlo nhi A)) !trmxK trmx1.
  by move=> [-> h]; split=> //; rewrite /Amx -det_tr -(trm_mx _ _ (band_of nlo nhi A)).
Qed.

(** det() is the determinant; isSingular() is true of every singular matrix. *)
Theorem C44_det (abs2 : F -> F) (eps : F) :
  (forall x, 0 <= abs2 x) -> abs2 0 = 0 -> 0 <= eps ->
  match BandLUDiv_ctor isrm iscm isdm inplace N nlo nhi A junk with
  | Ok (V, P) => LUdet N V P = \det Amx /\ (\det Amx = 0 -> isSingular abs2 eps N V)
  | _ => False
  end.
Proof.
  move=> a1 a2 a3; have := ctor_facts; case: (BandLUDiv_ctor _ _ _ _ _ _ _ _ _) => [[V P]|e|] //= [s [_ _ _ E]].
  have {}E : LUdet N V P = \det Amx by rewrite -E /Amx; case: (istrans) => //; rewrite (trm_mx _ _ (band_of nlo nhi A)) det_tr.
  split=> //; rewrite -E => D0; apply: isSingularP => //.
  move/eqP: D0; rewrite /LUdet /pivsign mulf_eq0 signr_eq0 /= big_mkord => /prodf_eq0 [i _ /eqP h].
  by exists i.
Qed.
End C44.
Print Assumptions C44_left_division.
Print Assumptions C44_right_division.
Print Assumptions C44_inverse.
Print Assumptions C44_det.

(** ** C45: makeInverseATA through LU. *)

(** A dense matrix. *)
Theorem C45_dense (C : numClosedFieldType) (nbT nbT2 nb nb2 : nat) (stA stB : stor) (istrans : bool) (N : nat) (A : fm C) P0 :
  (0 < nbT)%N -> (0 < nbT2)%N -> (0 < nb)%N -> (0 < nb2)%N ->
  match LUDiv_new nbT nbT2 nb nb2 istrans N A P0 with
  | Ok (LUx, P) =>
    match LU_InverseATA nbT nbT2 stA stB istrans N LUx P with
    | Ok X => let AtA := (\matrix_(i < N, j < N) \sum_(k < N) (A k i)^* * A k j) in
              mx N N X *m AtA = 1%:M /\ AtA *m mx N N X = 1%:M
    | Throw e => e = Singular /\ \det (mx N N A) = 0
    | UB => False
    end
  | _ => False
  end.
Proof.
  move=> h1 h2 h3 h4; have := LUDiv_newP h1 h2 h3 h4 istrans N A P0.
  case: (LUDiv_new _ _ _ _ _ _ _ _) => [[LUx P]|e|] //= [s Hs].
  have := LU_InverseATAP h1 h2 stA stB Hs; case: (LU_InverseATA _ _ _ _ _ _ _ _) => [X|e|] //=.
  have -> : ATA N A = \matrix_(i < N, j < N) \sum_(k < N) (A k i)^* * A k j; last by [].
  by apply/matrixP => i j; rewrite !mxE; apply: eq_bigr => k _; rewrite !mxE.
Qed.
Print Assumptions C45_dense.

(** A band matrix: when the transpose is decomposed, or no rows were exchanged.
    Missing: row exchanges with isTrans() false, where it is wrong. *)
Theorem C45_band_partial (C : numClosedFieldType) (nb : nat) (stA stB : stor)
    (isrm iscm isdm inplace : bool) (N nlo nhi : nat) (A junk M0 : fm C) :
  (0 < nb)%N -> (nlo < N)%N -> (nhi < N)%N -> (inplace -> bl_inplace nlo nhi isrm iscm isdm inplace) ->
  match BandLUDiv_ctor isrm iscm isdm inplace N nlo nhi A junk with
  | Ok (V, P) =>
    bl_trans nlo nhi isrm \/ (forall k, (k < N)%N -> P k = k) ->
    match BLU_InverseATA nb stA stB (bl_trans nlo nhi isrm) N (minn nlo nhi) (minn (nlo + nhi) N.-1) V P M0 with
    | Ok X => let B := band_of nlo nhi A in
              let AtA := (\matrix_(i < N, j < N) \sum_(k < N) (B k i)^* * B k j) in
              mx N N X *m AtA = 1%:M /\ AtA *m mx N N X = 1%:M
    | Throw e => e = Singular /\ \det (mx N N (band_of nlo nhi A)) = 0
    | UB => False
    end
  | _ => False
  end.
Proof.
  move=> h1 h2 h3 h4; have := @ctor_facts C isrm iscm isdm inplace N nlo nhi A junk h2 h3 h4.
  case: (BandLUDiv_ctor _ _ _ _ _ _ _ _ _) => [[V P]|e|] //= [s Hs] Hc.
  have N0 : (0 < N)%N by lia.
  have L0 : (minn nlo nhi < N)%N by lia.
  have H0 : (minn (nlo + nhi) N.-1 < N)%N by lia.
  have := BLU_InverseATAP N0 L0 H0 Hs stA stB h1 M0 Hc.
  case: (BLU_InverseATA _ _ _ _ _ _ _ _ _ _) => [X|e|] //=; rewrite /ATA.
  have -> : ctr (mx N N (band_of nlo nhi A)) *m mx N N (band_of nlo nhi A) =
     \matrix_(i < N, j < N) \sum_(k < N) (band_of nlo nhi A k i)^* * band_of nlo nhi A k j; last by [].
  by apply/matrixP => i j; rewrite !mxE; apply: eq_bigr => k _; rewrite !mxE.
Qed.
Print Assumptions C45_band_partial.

(** ((0,1),(1,0)), column major: A^dagger A is the identity, and so is its inverse;
    the answer is ((1,1),(1,2)). *)
Lemma exch_ctor (C : numFieldType) (junk : fm C) :
  match BandLUDiv_ctor false true false false 2 1 1 (fun i j => (i != j)%:R : C) junk with
  | Ok (V, P) => [/\ P 0%N = 1%N /\ P 1%N = 1%N, V 0%N 0%N = 1, V 0%N 1%N = 0, V 1%N 0%N = 0 & V 1%N 1%N = 1]
  | _ => False
  end.
Proof.
  rewrite /BandLUDiv_ctor /= /BandLU_Decompose /= /NonLapTriDiagLU /= /loop /= /tstep /= normr0 normr1 ltr01 /= /swapseg /tsw /= oner_eq0 /=.
  by split=> //; rewrite /updm /= ?mul0r ?mulr0 ?subr0.
Qed.
Theorem C45_band_refuted (C : numClosedFieldType) (junk M0 : fm C) :
  match BandLUDiv_ctor false true false false 2 1 1 (fun i j => (i != j)%:R : C) junk with
  | Ok (V, P) =>
    match BLU_InverseATA 64 CM CM (bl_trans 1 1 false) 2 1 1 V P M0 with
    | Ok X => X 1%N 1%N = 2%:R
    | _ => False
    end
  | _ => False
  end.
Proof.
  have := exch_ctor junk; case: (BandLUDiv_ctor _ _ _ _ _ _ _ _ _) => [[V P]|e|] // [[p0 p1] v00 v01 v10 v11].
  rewrite /BLU_InverseATA /=; set E := PackedPL_LDivEq _ _ _ _ _ _.
  have E10 : E 1%N 0%N = 1 by rewrite /E /PackedPL_LDivEq /= /outersub /swaprows /= p0 /tsw /= v10 mul0r subr0.
  have L11 : lladj 2 E 1%N 1%N = 2%:R.
    by rewrite /lladj !big_nat_recr ?big_geq //= /lower /= E10 conjC1 !mulr1 add0r.
  have := BTriLDivEqMUP CM CM false 2 1 2 V (lladj 2 E).
  case: (BTriLDivEqMU _ _ _ _ _ _ _ _) => [Y|e|] //=.
    2: by case=> _ [_ [[|[|i]] [// _ z]]]; move/eqP: z; rewrite ?v00 ?v11 oner_eq0.
  move=> [h _]; have := h 1%N 1%N isT isT.
  rewrite !big_ord_recr big_ord0 /= add0r upb_gt // mul0r add0r upb_d v11 mul1r L11 => Y11.
  have := BTriLDivEqMUP CM RM false 2 1 2 V (adj Y).
  case: (BTriLDivEqMU _ _ _ _ _ _ _ _) => [Z|e|] //=.
    2: by case=> _ [_ [[|[|i]] [// _ z]]]; move/eqP: z; rewrite ?v00 ?v11 oner_eq0.
  move=> [h' _]; have := h' 1%N 1%N isT isT.
  rewrite !big_ord_recr big_ord0 /= add0r upb_gt // mul0r add0r upb_d v11 mul1r.
  by rewrite /adj /trm /cnj Y11 => ->; rewrite conjCK.
Qed.
Print Assumptions C45_band_refuted.
