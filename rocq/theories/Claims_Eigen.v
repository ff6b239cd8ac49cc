(** C55: the eigenvalues and eigenvectors of a hermitian matrix. *)
From Coq Require Import Ring Field.
From Verif Require Import Base FMat RowPerm LUDiv RingTac Cplx Givens Claims_Givens QR QRProofs QRDiv QRDivProofs Claims_QR
  BidiagProofs BidiagQR BidiagQRProofs Bidiag22 BidiagFinal Perm Sort Claims_Sort SVDecompose SVSort Claims_SVDecompose
  Tridiag TridiagQR TridiagQRProofs TridiagProofs TridiagFinal Eigen2.
From mathcomp Require Import all_ssreflect all_fingroup all_algebra all_field zify.
Set Implicit Arguments. Unset Strict Implicit. Unset Printing Implicit Defensive.
Import GRing.Theory Num.Theory Order.Theory.
Local Open Scope ring_scope.

(** * Specification *)
Section Spec.
Variable C : numClosedFieldType.
Implicit Types (A U : fm C) (L : fv C).
Definition hermitian (N : nat) A : Prop := forall i j, (i < N)%N -> (j < N)%N -> A j i = (A i j)^*.
(** A U = U diag(L), with unitary U and real L. *)
Definition is_eigen (N : nat) A U L : Prop :=
  [/\ forall i j, (i < N)%N -> (j < N)%N -> \sum_(k < N) (U k i)^* * U k j = (i == j)%:R,
      forall i, (i < N)%N -> L i \is Num.real,
      forall i l, (i < N)%N -> (l < N)%N -> \sum_(j < N) A i j * U j l = L l * U i l &
      forall i j, (i < N)%N -> (j < N)%N -> A i j = \sum_(l < N) U i l * L l * (U j l)^*].
Definition ascending (N : nat) L : Prop := forall k, (k.+1 < N)%N -> L k <= L k.+1.
Definition descending_abs (N : nat) L : Prop := forall k, (k.+1 < N)%N -> `|L k.+1| <= `|L k|.

Lemma decE (N : nat) A (A0 : 'M[C]_N) U L : (forall i j : 'I_N, A0 i j = A i j) -> dec N A0 U L -> is_eigen N A U L.
Proof.
  move=> e [o r f]; have f' i j : (i < N)%N -> (j < N)%N -> A i j = \sum_(l < N) U i l * L l * (U j l)^*.
    by move=> hi hj; have := f (Ordinal hi) (Ordinal hj); rewrite e.
  split=> // i l hi hl.
  transitivity (\sum_(k < N) U i k * L k * (k == l :> nat)%:R).
    under eq_bigr => j _ do rewrite f' // big_distrl /=.
    rewrite exchange_big /=; apply: eq_bigr => k _; rewrite -(o k l) // big_distrr /=.
    by apply: eq_bigr => j _; rewrite mulrA.
  rewrite (bigD1 (Ordinal hl)) //= eqxx mulr1 big1 ?addr0 1?mulrC // => k hk.
  by case: eqP => [e'|_]; [case/eqP: hk; apply: val_inj|rewrite mulr0].
Qed.
End Spec.

Section Proofs.
Variable C : numClosedFieldType.
Variables (under : C -> bool) (dclim nb tb : nat).
Hypothesis underE : forall x, under x = (x == 0).
Hypothesis nb0 : (0 < nb)%N.
Variable dc : nat -> nat -> nat -> tst C -> run (tst C).
Variable blk : nat -> fm C -> fv C -> fv C -> fv C -> fm C * fv C * fv C * fv C.
Variable stdsort : (C * nat -> C * nat -> bool) -> list (C * nat) -> list (C * nat).
Hypothesis srtP : std_sort_contract stdsort.
Implicit Types (A U : fm C) (SS : fv C) (w : hwork C).

Lemma UnsortedP fuel N U SS w : (N < tb * 2)%N -> dcT_contract N N dclim (dc N) -> rdiag N U ->
  match UnsortedHermEigen 0 under dclim nb tb dc blk stdsort fuel N U SS w with
  | Ok (Some (U', L)) => dec N (mx N N (hel U)) U' L /\ descending_abs N L
  | Ok None => True
  | _ => False
  end.
Proof.
  move=> hN hdc rd; rewrite /UnsortedHermEigen; case: (posnP N) => [->|n0].
    by split=> //; split=> // i; case: i.
  have [U' [D' [E' [-> iv]]]] := TridiagUnpackP under blk nb0 (h_beta w) SS (h_E w) (h_Z w) n0 hN rd.
  cbn [bindO]; have := EigenFromTridiagonalP srtP underE hdc fuel n0 iv.
  by case: (EigenFromTridiagonal _ _ _ _ _ _ _ _ _).
Qed.

Lemma Eigen0P fuel N A U SS w : (N < tb * 2)%N -> dcT_contract N N dclim (dc N) -> hermitian N A ->
  match Eigen0 0 under dclim nb tb dc blk stdsort fuel N A U SS w with
  | Ok (Some (U', L)) => is_eigen N A U' L /\ ascending N L
  | Ok None => True
  | _ => False
  end.
Proof.
  move=> hN hdc hA; rewrite /Eigen0.
  have rd : rdiag N (setlow N A U).
    by move=> i hi; rewrite /setlow leqnn hi /=; apply/CrealP; rewrite -hA.
  have eA (i j : 'I_N) : (mx N N (hel (setlow N A U))) i j = A i j.
    rewrite mxE /hel /setlow !ltn_ord !andbT; case: leqP => // h.
    by rewrite ltnW // -hA.
  have := UnsortedP fuel SS w hN hdc rd.
  case: (UnsortedHermEigen _ _ _ _ _ _ _ _ _ _ _ _ _) => [[[U' L]|]|//|//] //= [d _].
  have := sortUDP srtP (key := id) Ascend (fun x h => h) d.
  rewrite /sortUD; cbn [fst snd] => -[d' o].
  by split; [exact: decE eA d'|exact: o].
Qed.

Lemma EigenP uconj fuel N A U SS w : (N < tb * 2)%N -> dcT_contract N N dclim (dc N) -> hermitian N A ->
  match Eigen 0 under dclim nb tb dc blk stdsort uconj fuel N A U SS w with
  | Ok (Some (U', L)) => is_eigen N A U' L /\ ascending N L
  | Ok None => True
  | _ => False
  end.
Proof.
  move=> hN hdc hA; rewrite /Eigen; case: uconj; last exact: Eigen0P.
  have hc : hermitian N (conjm A) by move=> i j hi hj; rewrite /conjm hA.
  have := Eigen0P fuel (conjm U) SS w hN hdc hc.
  case: (Eigen0 _ _ _ _ _ _ _ _ _ _ _ _ _ _) => [[[U' L]|]|//|//] //= [[o r f1 f2] a]; split=> //.
  have cj (x : C) i : (i < N)%N -> (L i)^* = L i by move=> hi; apply: CrealP; apply: r.
  split=> //.
  - move=> i j hi hj; rewrite -(conjC_nat _ (i == j)) -o // rmorph_sum.
    by apply: eq_bigr => k _; rewrite rmorphM.
  - move=> i l hi hl; apply: (can_inj (@conjCK C)); rewrite rmorph_sum rmorphM /= (cj 0) //= conjCK -f1 //.
    by apply: eq_bigr => k _; rewrite rmorphM /= conjCK.
  - move=> i j hi hj; apply: (can_inj (@conjCK C)); rewrite -[LHS]/(conjm A i j) f2 // rmorph_sum.
    by apply: eq_bigr => k _; rewrite !rmorphM /= (cj 0) // /conjm !conjCK.
Qed.

Lemma HermSVP fuel N U SS w : (N < tb * 2)%N -> dcT_contract N N dclim (dc N) -> rdiag N U ->
  match HermSV_Decompose 0 under dclim nb tb dc blk stdsort fuel N U SS w with
  | Ok (Some (U', L)) => is_eigen N (hel U) U' L /\ descending_abs N L
  | Ok None => True
  | _ => False
  end.
Proof.
  move=> hN hdc rd; rewrite /HermSV_Decompose.
  have := UnsortedP fuel SS w hN hdc rd.
  case: (UnsortedHermEigen _ _ _ _ _ _ _ _ _ _ _ _ _) => [[[U' L]|]|//|//] //= [d _].
  have := sortUDP srtP (key := Num.norm) Descend (fun x _ => normr_real x) d.
  rewrite /sortUD; cbn [fst snd] => -[d' o].
  by split; [apply: decE d' => i j; rewrite mxE|exact: o].
Qed.
End Proofs.

(** Eigen(A,U,lambda) of an N x N hermitian matrix with N below 2*SYM_TRIDIAG_BLOCKSIZE and at
    most DC_LIMIT (so that neither the blocked reduction [blk] nor the divide and conquer
    algorithm [dc] is used), for any former contents of U and of the new arrays, a
    conjugated or unconjugated U, any std::sort and any block size of the QR code, with exact
    arithmetic: if the iteration ends, U is unitary, its columns are eigenvectors of A, A =
    U diag(lambda) U^dagger, and lambda is real and ascending.  There is no access outside the
    arrays and nothing is thrown. *)
Theorem C55_eigen (C : numClosedFieldType) (under : C -> bool) (dclim nb tb : nat)
    (dc : nat -> nat -> nat -> tst C -> run (tst C)) blk stdsort (uconj : bool) (fuel N : nat)
    (A U : fm C) (L : fv C) (w : hwork C) :
  (forall x, under x = (x == 0)) -> (0 < nb)%N -> std_sort_contract stdsort ->
  (N < tb * 2)%N -> (N <= dclim)%N -> hermitian N A ->
  match Eigen 0 under dclim nb tb dc blk stdsort uconj fuel N A U L w with
  | Ok (Some (U', L')) => is_eigen N A U' L' /\ ascending N L'
  | Ok None => True
  | UB => False
  | Throw _ => False
  end.
Proof.
  move=> h1 h2 h3 ht hd hA.
  have vac : dcT_contract N N dclim (dc N) by move=> A0 o n st h _ [_ h' _ _]; exfalso; lia.
  by have := EigenP h1 h2 blk h3 uconj fuel U L w ht vac hA; case: (Eigen _ _ _ _ _ _ _ _ _ _ _ _ _ _ _).
Qed.
Print Assumptions C55_eigen.

(** With more rows, if the blocked reduction is not reached and the divide and conquer
    algorithm meets its contract (keep U T U^dagger, clear E in its block, change nothing
    else).  Missing: that TMV_SymSVDecompose_DC.cpp does, and BlockTridiagonalize. *)
Theorem C55_eigen_large_partial (C : numClosedFieldType) (under : C -> bool) (dclim nb tb : nat)
    (dc : nat -> nat -> nat -> tst C -> run (tst C)) blk stdsort (uconj : bool) (fuel N : nat)
    (A U : fm C) (L : fv C) (w : hwork C) :
  (forall x, under x = (x == 0)) -> (0 < nb)%N -> std_sort_contract stdsort ->
  (N < tb * 2)%N -> dcT_contract N N dclim (dc N) -> hermitian N A ->
  match Eigen 0 under dclim nb tb dc blk stdsort uconj fuel N A U L w with
  | Ok (Some (U', L')) => is_eigen N A U' L' /\ ascending N L'
  | Ok None => True
  | UB => False
  | Throw _ => False
  end.
Proof.
  move=> h1 h2 h3 ht hd hA.
  by have := EigenP h1 h2 blk h3 uconj fuel U L w ht hd hA; case: (Eigen _ _ _ _ _ _ _ _ _ _ _ _ _ _ _).
Qed.
Print Assumptions C55_eigen_large_partial.

(** The decomposition that a HermMatrix uses to divide by SVD: the same, with |lambda|
    descending.  Only the lower triangle of the array is read. *)
Theorem C55_herm_sv_decompose (C : numClosedFieldType) (under : C -> bool) (dclim nb tb : nat)
    (dc : nat -> nat -> nat -> tst C -> run (tst C)) blk stdsort (fuel N : nat)
    (A U : fm C) (L : fv C) (w : hwork C) :
  (forall x, under x = (x == 0)) -> (0 < nb)%N -> std_sort_contract stdsort ->
  (N < tb * 2)%N -> (N <= dclim)%N -> hermitian N A ->
  (forall i j, (j <= i < N)%N -> U i j = A i j) ->
  match HermSV_Decompose 0 under dclim nb tb dc blk stdsort fuel N U L w with
  | Ok (Some (U', L')) => is_eigen N A U' L' /\ descending_abs N L'
  | Ok None => True
  | UB => False
  | Throw _ => False
  end.
Proof.
  move=> h1 h2 h3 ht hd hA hU.
  have vac : dcT_contract N N dclim (dc N) by move=> A0 o n st h _ [_ h' _ _]; exfalso; lia.
  have rd : rdiag N U by move=> i hi; rewrite hU ?leqnn //; apply/CrealP; rewrite -hA.
  have eA i j : (i < N)%N -> (j < N)%N -> hel U i j = A i j.
    move=> hi hj; rewrite /hel; case: (leqP j i) => h; first by apply: hU; rewrite h.
    by rewrite hU -?hA //; lia.
  have := HermSVP h1 h2 blk h3 fuel L w ht vac rd; case: (HermSV_Decompose _ _ _ _ _ _ _ _ _ _ _ _ _) => [[[U' L']|]|//|//] //.
  move=> [[o r f1 f2] a]; split=> //; split=> // [i l hi hl|i j hi hj]; last by rewrite -eA // f2.
  by rewrite -f1 //; apply: eq_bigr => k _; rewrite eA.
Qed.
Print Assumptions C55_herm_sv_decompose.

(** The iteration ends for every hermitian matrix of at most two rows. *)
Theorem C55_two_by_two (C : numClosedFieldType) (under : C -> bool) (dclim nb tb : nat)
    (dc : nat -> nat -> nat -> tst C -> run (tst C)) blk stdsort (uconj : bool) (fuel N : nat)
    (A U : fm C) (L : fv C) (w : hwork C) :
  (forall x, under x = (x == 0)) -> (0 < nb)%N -> std_sort_contract stdsort ->
  (N < tb * 2)%N -> (N <= dclim)%N -> hermitian N A -> (N <= 2)%N -> (4 <= fuel)%N ->
  exists U' L', Eigen 0 under dclim nb tb dc blk stdsort uconj fuel N A U L w = Ok (Some (U', L')) /\
    is_eigen N A U' L' /\ ascending N L'.
Proof.
  move=> h1 h2 h3 ht hd hA n2 hf.
  have R0 X V : hermitian N X -> exists r, Eigen0 0 under dclim nb tb dc blk stdsort fuel N X V L w = Ok (Some r).
    move=> hX; rewrite /Eigen0 /UnsortedHermEigen; case: (posnP N) => [n0|n0]; first by rewrite n0 /=; eexists.
    have rd : rdiag N (setlow N X V).
      by move=> i hi; rewrite /setlow leqnn hi /=; apply/CrealP; rewrite -hX.
    have [U' [D' [E' [-> [_ iv]]]]] := TridiagUnpackP under blk h2 (h_beta w) L (h_E w) (h_Z w) n0 ht rd.
    cbn [bindO]; have n1 : (0 < N <= 2)%N by rewrite n0.
    have [st' ->] := EigenFromTridiagonal2 h1 N (dc N) stdsort n1 hd hf iv.
    by cbn [bindR toR bindO]; eexists.
  have [[U' L'] e] : exists r, Eigen 0 under dclim nb tb dc blk stdsort uconj fuel N A U L w = Ok (Some r).
    rewrite /Eigen; case: uconj; last exact: R0.
    have hc : hermitian N (conjm A) by move=> i j hi hj; rewrite /conjm hA.
    by have [[U' L'] ->] := R0 _ (conjm U) hc; cbn [bindO]; eexists.
  exists U', L'; split=> //.
  by have := C55_eigen dc blk uconj fuel U L w h1 h2 h3 ht hd hA; rewrite e.
Qed.
Print Assumptions C55_two_by_two.

(** A complex matrix that meets the hypotheses: [[2, i], [-i, 3]]. *)
Example C55_example (C : numClosedFieldType) (U : fm C) (L : fv C) (w : hwork C) dc blk :
  let A : fm C := fun i j => if i == j then (i.+2)%:R else if (i < j)%N then 'i else - 'i in
  hermitian 2 A /\ A 0%N 1%N != A 1%N 0%N /\ exists U' L',
    Eigen 0 (fun x => x == 0) 30 64 64 dc blk (@isort (C * nat)) true 4 2 A U L w = Ok (Some (U', L')) /\
    is_eigen 2 A U' L' /\ ascending 2 L'.
Proof.
  move=> A; have hA : hermitian 2 A.
    by move=> [|[|i]] [|[|j]] // _ _; rewrite /A /= ?rmorphN /= ?conjCi ?opprK ?conjC_nat.
  split=> //; split.
    rewrite /A /= -subr_eq0 opprK -mulr2n -mulr_natr mulf_neq0 ?neq0Ci ?pnatr_eq0 //.
  by apply: C55_two_by_two => //; exact: isort_contract.
Qed.

(** ** The eigenvalues are those of A, with their multiplicities. *)
Section Spectrum.
Variable C : numClosedFieldType.
Lemma prodX_perm (s t : seq C) : \prod_(x <- s) ('X - x%:P) = \prod_(x <- t) ('X - x%:P) -> perm_eq s t.
Proof.
  elim: s t => [|x s IH] t h.
    have := congr1 (fun p : {poly C} => size p) h; rewrite /= !size_prod_XsubC => -[] /esym/size0nil ->; exact: perm_refl.
  have xt : x \in t.
    by rewrite -root_prod_XsubC -h root_prod_XsubC mem_head.
  have pt := perm_to_rem xt.
  move: h; rewrite big_cons (perm_big _ pt) big_cons /= => /(mulfI (negbT (polyXsubC_eq0 x))) /IH h.
  by rewrite perm_sym (permPl pt) perm_cons perm_sym.
Qed.
Lemma eigen_char_poly N (A U : fm C) (L : fv C) : is_eigen N A U L ->
  char_poly (mx N N A) = \prod_(l < N) ('X - (L l)%:P).
Proof.
  move=> [o _ _ f]; set Um := mx N N U.
  have u1 : ctr Um *m Um = 1%:M.
    apply/matrixP => i j; rewrite !mxE -val_eqE /= -o //; by apply: eq_bigr => k _; rewrite !mxE.
  set D : 'M[C]_N := \matrix_(i, j) (if i == j then L i else 0).
  have eA : mx N N A = Um *m D *m ctr Um.
    apply/matrixP => i j; rewrite [LHS]mxE f // [RHS]mxE; apply: eq_bigr => l _; rewrite !mxE; congr (_ * _).
    rewrite (bigD1 l) //= big1 ?addr0; first by rewrite !mxE eqxx.
    by move=> k hk; rewrite !mxE (negbTE hk) mulr0.
  have -> : char_poly (mx N N A) = char_poly D.
    rewrite /char_poly /char_poly_mx eA !map_mxM.
    have v1 : map_mx polyC (ctr Um) *m map_mx polyC Um = 1%:M by rewrite -map_mxM u1 map_mx1.
    have v2 := mulmx1C v1.
    move: (map_mx polyC (ctr Um)) (map_mx polyC Um) (map_mx polyC D) v1 v2 => V W X v1 v2.
    have -> : 'X%:M - W *m X *m V = W *m ('X%:M - X) *m V.
      by rewrite mulmxBr mulmxBl scalar_mxC -[_%:M *m W *m V]mulmxA v2 mulmx1.
    by rewrite !det_mulmx mulrAC -det_mulmx v2 det1 mul1r.
  rewrite char_poly_trig; first by apply: eq_bigr => i _; rewrite mxE eqxx.
  apply/is_trig_mxP => i j hij; rewrite mxE; case: eqP => // e; exfalso; move: hij; by rewrite e ltnn.
Qed.
End Spectrum.
Theorem C55_spectrum (C : numClosedFieldType) (N : nat) (A U : fm C) (L : fv C) : is_eigen N A U L ->
  [/\ char_poly (mx N N A) = \prod_(l < N) ('X - (L l)%:P), \det (mx N N A) = \prod_(l < N) L l &
      forall x, (exists2 v : fv C, (exists2 i, (i < N)%N & v i != 0) &
                  forall i, (i < N)%N -> \sum_(j < N) A i j * v j = x * v i) <-> exists2 l, (l < N)%N & x = L l].
Proof.
  move=> h; have cp := eigen_char_poly h; split=> //.
    have := congr1 (fun p => p.[0]) cp; rewrite horner_prod /= => e.
    have d := char_poly_det (mx N N A); rewrite -horner_coef0 e in d.
    have ed : \prod_(i < N) ('X - (L i)%:P).[0] = (-1) ^+ N * \prod_(i < N) L i.
      under eq_bigr do rewrite hornerXsubC sub0r -mulN1r.
      by rewrite big_split /= prodr_const card_ord.
    by move: d; rewrite ed => /(congr1 (fun x => (-1) ^+ N * x)); rewrite /= !mulrA -!exprMn mulrNN mulr1 expr1n !mul1r => <-.
  case: h => o r f1 f2 x.
  have hA i j : (i < N)%N -> (j < N)%N -> A j i = (A i j)^*.
    move=> hi hj; rewrite !f2 // rmorph_sum; apply: eq_bigr => k _.
    by rewrite !rmorphM /= conjCK (CrealP (r _ (ltn_ord k))) mulrC mulrA mulrAC.
  have o2 i j : (i < N)%N -> (j < N)%N -> \sum_(l < N) U i l * (U j l)^* = (i == j)%:R.
    move=> hi hj; have u1 : ctr (mx N N U) *m mx N N U = 1%:M.
      apply/matrixP => i' j'; rewrite !mxE -val_eqE /= -o //; by apply: eq_bigr => k _; rewrite !mxE.
    have /matrixP/(_ (Ordinal hi) (Ordinal hj)) := mulmx1C u1; rewrite !mxE -val_eqE /= => <-.
    by apply: eq_bigr => k _; rewrite !mxE.
  split.
    move=> [v [i0 hi0 nv] hv].
    (* some coefficient of v in the basis U is not zero *)
    pose cf l := \sum_(j < N) (U j l)^* * v j.
    have key l : (l < N)%N -> x * cf l = L l * cf l.
      move=> hl; rewrite /cf !big_distrr /=.
      transitivity (\sum_(i < N) \sum_(j < N) (U i l)^* * (A i j * v j)).
        by apply: eq_bigr => i _; rewrite mulrCA -hv // big_distrr.
      rewrite exchange_big /=; apply: eq_bigr => j _.
      rewrite [RHS]mulrA -(CrealP (r l hl)) -rmorphM /= -f1 // rmorph_sum big_distrl /=.
      by apply: eq_bigr => i _; rewrite rmorphM /= -hA // mulrA [_^* * A _ _]mulrC.
    have vE : v i0 = \sum_(l < N) U i0 l * cf l.
      rewrite /cf; under eq_bigr do rewrite big_distrr /=.
      rewrite exchange_big /= (bigD1 (Ordinal hi0)) //= [X in _ + X]big1 ?addr0.
        by under eq_bigr do rewrite mulrA; rewrite -big_distrl /= o2 // eqxx mul1r.
      move=> j hj; under eq_bigr do rewrite mulrA.
      rewrite -big_distrl /= o2 //; case: eqP => [e|_]; last by rewrite mul0r.
      by case/eqP: hj; apply: val_inj.
    have [l _ nl] : exists2 l : 'I_N, true & cf l != 0.
      apply/exists_inP; rewrite -[X in is_true X]negbK negb_exists; apply/negP => /forallP z.
      case/eqP: nv; rewrite vE big1 // => l _; have := z l; rewrite /= negbK => /eqP ->; exact: mulr0.
    by exists l => //; apply: (mulIf nl); apply: key.
  move=> [l hl ->]; exists (fun i => U i l); last by move=> i hi; exact: f1.
  have [i _ ni] : exists2 i : 'I_N, true & U i l != 0.
    apply/exists_inP; rewrite -[X in is_true X]negbK negb_exists; apply/negP => /forallP z.
    have := o l l hl hl; rewrite eqxx big1 => [/esym/eqP|i _]; first by rewrite oner_eq0.
    by have := z i; rewrite /= negbK => /eqP ->; exact: mulr0.
  by exists i.
Qed.
Print Assumptions C55_spectrum.

(** So the eigenvalues that Eigen gives depend on A only: not on the former contents of any
    array, the block sizes, std::sort or the storage of U. *)
Theorem C55_unique (C : numClosedFieldType) (N : nat) (A U V : fm C) (L K : fv C) :
  is_eigen N A U L -> ascending N L -> is_eigen N A V K -> ascending N K ->
  forall l, (l < N)%N -> L l = K l.
Proof.
  move=> h1 a1 h2 a2.
  have srt (F : fv C) : ascending N F -> sorted <=%O (map F (iota 0 N)) by move=> a; apply/(sortedP 0) => i;
    rewrite size_map size_iota => hi; rewrite !(nth_map 0%N) ?size_iota ?nth_iota //; try lia; exact: a.
  have p : perm_eq (map L (iota 0 N)) (map K (iota 0 N)).
    apply: prodX_perm; rewrite !big_map -[in LHS](subn0 N) -[in RHS](subn0 N) !big_mkord.
    by rewrite -(eigen_char_poly h1) -(eigen_char_poly h2).
  have e := le_sorted_eq (srt _ a1) (srt _ a2) p => l hl.
  have := congr1 (fun s => nth 0 s l) e; by rewrite /= !(nth_map 0%N) ?size_iota // nth_iota.
Qed.
Print Assumptions C55_unique.

(** ** Accuracy *)
Section Accuracy.
Variable C : numClosedFieldType.
Variables (under : C -> bool) (dclim nb tb : nat).
Hypothesis underE : forall x, under x = (x == 0).
Hypothesis nb0 : (0 < nb)%N.
Variable dc : nat -> nat -> nat -> tst C -> run (tst C).
Variable blk : nat -> fm C -> fv C -> fv C -> fv C -> fm C * fv C * fv C * fv C.
Variable stdsort : (C * nat -> C * nat -> bool) -> list (C * nat) -> list (C * nat).
Hypothesis srtP : std_sort_contract stdsort.
Variables eps e : C.
Hypothesis eps0 : 0 < eps.
Hypothesis e1 : 2%:R * eps < e.
Hypothesis e2 : e < 2%:R * sqrtC eps.

Lemma e_gt0 : 0 < e.
Proof using eps0 e1. by apply: lt_trans e1; rewrite mulr_gt0 // ltr0n. Qed.

Lemma chop2 st sc : 0 < sc -> tD st 0%N = 1 / sc -> tD st 1%N = 1 / sc -> tE st 0%N = e / sc ->
  let st' := HChop eps under 0 2 st in [/\ tD st' 0%N = 1 / sc, tD st' 1%N = 1 / sc & tE st' 0%N = 0].
Proof using underE eps0 e1 e2.
  case: st => U D E; cbn [tU tD tE] => sp d0 d1 ee; rewrite /HChop -[iota 0 (2 - 1)]/[:: 0%N]; cbn [tU tD tE foldl].
  rewrite underE d0; have nsc : 1 / sc != 0 by rewrite div1r invr_neq0 // gt_eqF.
  rewrite (negbTE nsc) /hchop_step -[(0 + 0)%N]/0%N underE d1 (negbTE nsc).
  have gi : 0 < sc^-1 by rewrite invr_gt0.
  have na : `|1 / sc| = sc^-1 by rewrite div1r gtr0_norm.
  have ne : `|e / sc| = e / sc by rewrite gtr0_norm // mulr_gt0 // e_gt0.
  have t2 : sc^-1 + sc^-1 = 2%:R * sc^-1 by rewrite mulr_natl mulr2n.
  have nz : (e / sc == 0) = false by rewrite gt_eqF // mulr_gt0 // e_gt0.
  have c1 : eps * (`|1 / sc| + `|1 / sc|) < `|e / sc| by rewrite na ne t2 mulrCA mulrA ltr_pmul2r.
  have c2 : `|e / sc| < sqrtC eps * (`|1 / sc| + `|1 / sc|) by rewrite na ne t2 mulrCA mulrA ltr_pmul2r.
  have c3 : 1 / sc + 1 / sc != 0 by rewrite div1r t2 mulf_neq0 ?pnatr_eq0 // invr_eq0 gt_eqF.
  rewrite d0 d1 ee c1 underE nz; cbn [negb orb]; rewrite ee c2 c3 underE subrr mul0r mulr0 eqxx.
  by cbn [andb tD tE]; split=> //; rewrite /updv eqxx.
Qed.

Lemma sortUD_const M key ad N U D d : (forall x, x \is Num.real -> key x \is Num.real) -> d \is Num.real ->
  (forall i, (i < N)%N -> D i = d) -> forall i, (i < N)%N -> (sortUD M stdsort key ad N U D).2 i = d.
Proof using underE nb0 eps0 e1 e2 srtP.
  move=> hk rd hD i hi; rewrite /sortUD; cbn [snd]; rewrite hi.
  have rD j : (j < N)%N -> D j \is Num.real by move=> hj; rewrite hD.
  have [g1 _] := sortkP srtP ad hk rD.
  have [s [Hs _]] := @psig_perm N (sortk stdsort key ad N D) 0 N ltac:(by move=> k Hk; have := g1 k; lia).
  by rewrite (Hs (Ordinal hi)) hD.
Qed.

Lemma From2 f st : tD st 0%N = 1 -> tD st 1%N = 1 -> tE st 0%N = e ->
  exists st', EigenFromTridiagonal eps under dclim (dc 2) 2 stdsort f.+2 2 st = Done st' /\
    forall i, (i < 2)%N -> tD st' i = 1.
Proof using underE nb0 eps0 e1 e2 srtP.
  move=> d0 d1 ee; rewrite /EigenFromTridiagonal -[2%N == 0%N]/false.
  have [mE1 mE2] := maxelP (2 - 1) (tE st); have [mD1 mD2] := maxelP 2 (tD st).
  have [k1 [k2 k3]] := max2P (ger0_real mD1) (ger0_real mE1).
  move: (max2 _ _) k1 k2 k3 => sc k1 k2 k3.
  have sp : 0 < sc by apply: lt_le_trans k1; apply: lt_le_trans (mD2 0%N isT); rewrite d0 normr1 ltr01.
  rewrite underE gt_eqF //; set st1 := TS _ _ _.
  have [c1 c2 c3] : let st' := HChop eps under 0 2 st1 in [/\ tD st' 0%N = 1 / sc, tD st' 1%N = 1 / sc & tE st' 0%N = 0].
    by apply: chop2 => //=; rewrite ?d0 ?d1 ?ee.
  rewrite /HDo; move: (HChop _ _ _ _ _) c1 c2 c3 => st2 c1 c2 c3.
  have -> : HLoop eps under dclim (dc 2) 2 f.+2 (2 - 1) st2 = Done st2.
    by rewrite -[LHS]/(if tE st2 0%N == 0 then Done st2 else _) c3 eqxx.
  cbn [bindR].
  have rn (x : C) : x \is Num.real -> `|x| \is Num.real by move=> _; exact: normr_real.
  have rs : 1 / sc \is Num.real by rewrite div1r rpredV gtr0_real.
  have hD i : (i < 2)%N -> tD st2 i = 1 / sc by case: i => [|[|i]].
  have := sortUD_const 2 Descend (tU st2) rn rs hD; case: (sortUD _ _ _ _ _ _ _) => U' D'; cbn [snd] => h.
  eexists; split; first by []. 
  by move=> i hi; cbn [tD]; rewrite hi h // mul1r mulVf // gt_eqF.
Qed.

Lemma Eigen0acc f X V L w : (2 < tb * 2)%N -> X 0%N 0%N = 1 -> X 1%N 0%N = e -> X 1%N 1%N = 1 ->
  exists U' L', Eigen0 eps under dclim nb tb dc blk stdsort f.+2 2 X V L w = Ok (Some (U', L')) /\
    forall i, (i < 2)%N -> L' i = 1.
Proof using underE nb0 eps0 e1 e2 srtP.
  move=> ht x0 x1 x2; rewrite /Eigen0 /UnsortedHermEigen -[2%N == 0%N]/false /TridiagUnpack /Tridiagonalize -[(0 < 2)%N]/true.
  have -> : (tb * 2 <= 2)%N = false by lia.
  rewrite /NonBlockTridiagonalize -[iota 0 (2 - 1)]/[:: 0%N]; cbn [foldl]; rewrite /tstep.
  set W := setlow 2 X V.
  have er : e \is Num.real by rewrite gtr0_real // e_gt0.
  have [|//=|B [-> eB]] := @hreflect_id C under 2 1 (shc W) 0.
  - by move=> i; lia.
  - by rewrite /W /setlow /= x1.
  rewrite eqxx; cbn [negb].
  have [|Q [-> _]] := @getq_elt C nb nb0 (2 - 1) (2 - 1) (fun i j => shiftU 2 (unshc B) i.+1 j.+1) (updv (h_beta w) 0 0) (h_Z w) (leqnn _).
    by move=> k _ _ r; lia.
  cbn [bindO]; set st := TS _ _ _.
  have [|||st' [-> h]] := @From2 f st.
  - by rewrite /st /= /unshc eB /W /setlow /= x0; apply/Creal_ReP; exact: real1.
  - by rewrite /st /= /unshc eB /W /setlow /= x2; apply/Creal_ReP; exact: real1.
  - by rewrite /st /= /hel /unshc /= eB /W /setlow /= x1 (CrealP er); apply/Creal_ReP.
  cbn [bindR toR bindO].
  have ri (x : C) : x \is Num.real -> id x \is Num.real by [].
  have := sortUD_const 2 Ascend (tU st') ri (@real1 C) h; case: (sortUD _ _ _ _ _ _ _) => U' D'; cbn [snd] => hD.
  by exists U', D'.
Qed.
End Accuracy.

(** The last claim of C55 is false.  For every eps > 0 (TMV_Epsilon) the matrix [[1,e],[e,1]]
    with 2 eps < e < 2 sqrt(eps), whose eigenvalues are 1 - e and 1 + e, gets the eigenvalues
    1 and 1: the third test of HermTridiagonalChopSmallElements takes the zero of
    e (D1 - D0) / (D1 + D0) for an underflow whenever the diagonal elements are equal.  The
    error e can be nearly 2 sqrt(eps): 1e-8 in double precision. *)
Theorem C55_accuracy_refuted (C : numClosedFieldType) (under : C -> bool) (dclim nb tb : nat)
    (dc : nat -> nat -> nat -> tst C -> run (tst C)) blk stdsort (uconj : bool) (fuel : nat)
    (U : fm C) (L : fv C) (w : hwork C) (eps e : C) :
  (forall x, under x = (x == 0)) -> (0 < nb)%N -> std_sort_contract stdsort -> (2 < tb * 2)%N -> (2 <= fuel)%N ->
  0 < eps -> 2%:R * eps < e -> e < 2%:R * sqrtC eps ->
  let A : fm C := fun i j => if i == j then 1 else e in
  [/\ hermitian 2 A,
      exists U' L', Eigen eps under dclim nb tb dc blk stdsort uconj fuel 2 A U L w = Ok (Some (U', L')) /\
        forall i, (i < 2)%N -> L' i = 1 &
      exists V K, [/\ is_eigen 2 A V K, ascending 2 K, K 0%N = 1 - e & K 1%N = 1 + e]].
Proof.
  move=> h1 h2 h3 ht hf p0 p1 p2 A.
  have ep : 0 < e by apply: lt_trans p1; rewrite mulr_gt0 // ltr0n.
  have er : e^* = e by apply: CrealP; rewrite gtr0_real.
  have hA : hermitian 2 A.
    by move=> i j _ _; rewrite /A eq_sym; case: eqP => _; rewrite ?conjC1 ?er.
  split=> //.
    case: fuel hf => [|[|f]] // _; rewrite /Eigen; case: uconj; last first.
      exact: (@Eigen0acc C under dclim nb tb h1 h2 dc blk stdsort h3 eps e p0 p1 p2 f A U L w ht).
    have [|||U' [L' [-> h]]] := @Eigen0acc C under dclim nb tb h1 h2 dc blk stdsort h3 eps e p0 p1 p2 f (conjm A) (conjm U) L w ht.
    - by rewrite /conjm /A /= conjC1.
    - by rewrite /conjm /A /= er.
    - by rewrite /conjm /A /= conjC1.
    by cbn [bindO]; exists (conjm U'), L'.
  have [V [K [_ [iv a]]]] := C55_two_by_two dc blk false U L w h1 h2 h3 ht (leqnn 2) hA (leqnn 2) (leqnn 4).
  exists V, K; have [_ _ hs] := C55_spectrum iv.
  have i0 : exists2 l, (l < 2)%N & 1 - e = K l.
    apply/hs; exists (fun i => if i == 0%N then 1 else -1); first by exists 0%N; rewrite //= oner_eq0.
    move=> [|[|i]] // _; rewrite !big_ord_recl big_ord0 /A /= ?mulr1 ?mulrN1 addr0 //.
    by rewrite opprB.
  have i1 : exists2 l, (l < 2)%N & 1 + e = K l.
    apply/hs; exists (fun _ => 1); first by exists 0%N; rewrite //= oner_eq0.
    by move=> [|[|i]] // _; rewrite !big_ord_recl big_ord0 /A /= ?mulr1 addr0 // addrC.
  have lt : 1 - e < 1 + e by rewrite ltr_add2l (lt_trans _ ep) // oppr_lt0.
  have a0 := a 0%N isT.
  case: i0 => [[|[|//]] _ k0]; case: i1 => [[|[|//]] _ k1]; split=> //; exfalso; move: lt; rewrite k0 k1 ?ltxx ?(le_gtF a0) //.
Qed.
Print Assumptions C55_accuracy_refuted.
