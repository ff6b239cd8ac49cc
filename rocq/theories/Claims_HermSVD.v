(** C56: division by a hermitian matrix with its singular value decomposition. *)
From Verif Require Import Base FMat TriSolve TriInv RowPerm Claims_Tri LUDiv Cplx Chol QR QRProofs QRDiv QRDivProofs Claims_QR SVDiv SVDivProofs Claims_SVD
  BidiagQR Sort SVDecompose Tridiag TridiagQR Claims_Eigen HermSVD.
From mathcomp Require Import all_ssreflect all_fingroup all_algebra all_field zify.
Set Implicit Arguments. Unset Strict Implicit. Unset Printing Implicit Defensive.
Import GRing.Theory Num.Theory Order.Theory.
Local Open Scope ring_scope.

Section Proofs.
Variable C : numClosedFieldType.
Variables (N : nat) (A U : fm C) (S : fv C).
Hypothesis H : is_eigen N A U S.
Hypothesis D : descending_abs N S.


Let Sr i : (i < N)%N -> S i \is Num.real. Proof using H. by case: H => _ h _ _; apply: h. Qed.
Let Uo : orthonormal N N U. Proof using H. by case: H. Qed.
Let Vo : orthonormal N N (fun j k => (hadj U k j)^*).
Proof using H. by move=> c c' hc hc'; rewrite /hadj; under eq_bigr do rewrite !conjCK; apply: Uo. Qed.

Lemma absS i : (i < N)%N -> HermSVDiv_getS N S i = `|S i|.
Proof using H.
  move=> hi; rewrite /HermSVDiv_getS hi /=; case: ifP => h; first by rewrite ltr0_norm.
  by rewrite ger0_norm // real_leNgt ?h ?real0 // Sr.
Qed.
(** Either way of writing a term of A. *)
Lemma term i k j : (k < N)%N -> U i k * HermSVDiv_getS N S k * HermSVDiv_getVt N U S k j = U i k * S k * hadj U k j.
Proof using H.
  by move=> hk; rewrite /HermSVDiv_getS /HermSVDiv_getVt hk /=; case: ifP => // _; rewrite mulrN1 !mulrN mulNr opprK.
Qed.
Lemma svd : is_svd N N A U (HermSVDiv_getS N S) (HermSVDiv_getVt N U S).
Proof using H D.
  rewrite /is_svd minnn; split=> //.
  - move=> k k' hk hk'.
    pose sg l : C := if S l < 0 then -1 else 1.
    have e l j : (l < N)%N -> HermSVDiv_getVt N U S l j = sg l * (U j l)^*.
      by move=> hl; rewrite /HermSVDiv_getVt /sg /hadj hl /=; case: ifP => _; rewrite ?mul1r // mulrC.
    have sr l : (sg l)^* = sg l by rewrite /sg; case: ifP => _; rewrite ?rmorphN /= conjC1.
    have s2 l : sg l * sg l = 1 by rewrite /sg; case: ifP => _; rewrite ?mulrNN mulr1.
    transitivity (sg k * sg k' * \sum_(j < N) (U j k)^* * U j k').
      rewrite big_distrr /=; apply: eq_bigr => j _; rewrite !e // rmorphM /= sr conjCK; rewrite -!mulrA; congr (_ * _).
      by rewrite mulrCA.
    rewrite Uo //; case: eqP => [->|_]; rewrite ?mulr0 // mulr1 s2 //.
  - by move=> k hk; rewrite absS.
  - by move=> k hk; rewrite !absS; [exact: D|lia|lia].
  - move=> i j hi hj; case: H => _ _ _ -> //; rewrite /usv; apply: eq_bigr => l _; by rewrite term.
Qed.
Let svd' : is_svd (maxn N N) (minn N N) (if (N < N)%N then trm A else A) U (HermSVDiv_getS N S) (HermSVDiv_getVt N U S).
Proof using H D. by rewrite maxnn minnn ltnn; exact: svd. Qed.

Lemma usvE k i j : (k <= N)%N -> usv k U (HermSVDiv_getS N S) (HermSVDiv_getVt N U S) i j = usv k U S (hadj U) i j.
Proof using H. by move=> hk; apply: eq_bigr => l _; apply: term; have := ltn_ord l; lia. Qed.

Lemma threshE toler : HermSVDiv_thresh N S toler = SVDiv_thresh N (HermSVDiv_getS N S) toler.
Proof using H.
  rewrite /HermSVDiv_thresh /SVDiv_thresh; case: eqP => // /eqP n0.
  rewrite absS ?lt0n //; move: (_ * toler) => t.
  suff h n : (n <= N)%N -> thr (fun i => `|S i|) t n = thr (HermSVDiv_getS N S) t n by exact: h.
  by elim: n => //= n IH hn; rewrite absS // IH // ltnW.
Qed.
Lemma hthresh_le toler : (HermSVDiv_thresh N S toler <= N)%N.
Proof using H D. by rewrite threshE; have := @thresh_le C N N A U _ _ toler svd'; rewrite minnn. Qed.
Lemma hthresh_nz toler : 0 <= toler -> forall i, (i < HermSVDiv_thresh N S toler)%N -> S i != 0.
Proof using H D.
  move=> ht i hi; have hN := leq_trans hi (hthresh_le toler).
  have := @thresh_nz C N N A U _ _ toler svd' ht i; rewrite minnn -threshE => /(_ hi); by rewrite absS // normr_eq0.
Qed.

Section Div.
Variable k : nat.
Hypothesis kN : (k <= N)%N.
Let P := Pk N N U S (hadj U) k.
Lemma hpen : (forall i, (i < k)%N -> S i != 0) -> penrose (mx N N (usv k U S (hadj U))) P.
Proof using H kN. by move=> nz; rewrite mx_usv; apply: PkP. Qed.

Lemma PE (i j : 'I_N) : P i j = \sum_(l < k) U i l * (S l)^-1 * (U j l)^*.
Proof using H.
  rewrite /P /Pk -mulmxA mxE; apply: eq_bigr => l _.
  rewrite [ctr _ _ _]mxE [mx _ _ _ _ _]mxE /hadj conjCK -mulrA; congr (_ * _).
  have -> : ctr (mx N k U) = mx k N (hadj U) by apply/matrixP => a b; rewrite !mxE.
  by rewrite dgM mxE.
Qed.
Lemma P_herm : forall i j : 'I_N, P j i = (P i j)^*.
Proof using H kN.
  move=> i j; rewrite !PE rmorph_sum; apply: eq_bigr => l _; rewrite !rmorphM /= conjCK fmorphV.
  have hl : (l < N)%N by have := ltn_ord l; lia.
  by rewrite (CrealP (Sr hl)) mulrC mulrA mulrAC.
Qed.
Lemma hinvP debug stored sinv0 : (forall i, (i < k)%N -> S i != 0) ->
  match HermSV_Inverse debug stored N U S k sinv0 with
  | Ok X => (forall i j : 'I_N, stored i j -> X i j = P i j) /\
            (forall i j, ~~ [&& i < N, j < N & stored i j]%N -> X i j = sinv0 i j)
  | Throw e => [/\ debug, e = FailedAssert, (0 < N)%N & k = 0%N]
  | UB => False
  end.
Proof using H kN.
  move=> nz; rewrite /HermSV_Inverse; have := DiagLDivEqP k N S (hadj U).
  case: (DiagLDivEq _ _ _ _) => [s|e|] /=; last by [].
    move=> [_ hs]; rewrite /SymMultMM; case: ifP => [/and3P [h1 h2 /eqP h3] //|_].
    split=> [i j h|i j h]; last by rewrite (negbTE h).
    have e : \sum_(0 <= l < k) U i l * s l j = P i j.
      rewrite PE big_mkord; apply: eq_bigr => l _; rewrite hs !ltn_ord /= /hadj -mulrA.
      by congr (_ * _); rewrite mulrC.
    rewrite !ltn_ord h /= e; case: eqP => // /val_inj ij; rewrite -ij.
    by apply/Creal_ReP/CrealP; rewrite -P_herm.
  by move=> [_ _ [i hi z]]; have := nz i hi; rewrite z eqxx.
Qed.
End Div.
End Proofs.

(** getU, getS, getVt are a singular value decomposition of A. *)
Theorem C56_factors (C : numClosedFieldType) (N : nat) (A U : fm C) (S : fv C) :
  is_eigen N A U S -> descending_abs N S ->
  is_svd N N A U (HermSVDiv_getS N S) (HermSVDiv_getVt N U S).
Proof. exact: svd. Qed.
Print Assumptions C56_factors.

(** After thresh(toler), m / A and m % A are the minimum norm least squares solutions for the
    matrix without the dropped eigenvalues; nothing is thrown. *)
Theorem C56_division (C : numClosedFieldType) (N K : nat) (A U m x0 : fm C) (S : fv C) (toler : C) :
  is_eigen N A U S -> descending_abs N S -> 0 <= toler ->
  let kmax := HermSVDiv_thresh N S toler in
  let B := usv kmax U S (hadj U) in
  match HermSVDiv_LDiv N K U S kmax m x0 with
  | Ok X => forall c, (c < K)%N -> mnls N N B (fun k => X k c) (fun i => m i c)
  | _ => False
  end /\
  match HermSVDiv_RDiv N K U S kmax m x0 with
  | Ok X => forall r, (r < K)%N -> mnls N N (trm B) (fun k => X r k) (fun j => m r j)
  | _ => False
  end.
Proof.
  move=> H D ht kmax B; have kN := hthresh_le H D toler; have nz := hthresh_nz H D ht.
  have pen := hpen H kN nz; split.
    have := @SV_LDivP C N N U S (hadj U) kmax K m x0; rewrite /HermSVDiv_LDiv.
    case: (SV_LDiv _ _ _ _ _ _ _ _ _) => [X|e|] //=.
      by move=> [_ e] c hc; apply: mnls_col pen e hc.
    by move=> [_ _ [i hi z]]; have := nz i hi; rewrite z eqxx.
  have := @SV_RDivP C N N U S (hadj U) kmax K m x0; rewrite /HermSVDiv_RDiv.
  case: (SV_RDiv _ _ _ _ _ _ _ _ _) => [X|e|] //=.
    by move=> [_ e] r hr; apply: mnls_row pen e hr.
  by move=> [_ _ [i hi z]]; have := nz i hi; rewrite z eqxx.
Qed.
Print Assumptions C56_division.

(** makeInverse into a matrix: the Moore-Penrose inverse, every element of it, whatever the
    matrix held before.  Compiled with TMV_DEBUG, it throws instead when no eigenvalue is left
    (below: the zero matrix). *)
Theorem C56_inverse (C : numClosedFieldType) (debug : bool) (N : nat) (A U x0 : fm C) (S : fv C) (toler : C) :
  is_eigen N A U S -> descending_abs N S -> 0 <= toler ->
  let kmax := HermSVDiv_thresh N S toler in
  match HermSVDiv_Inverse debug N U S kmax x0 with
  | Ok X => mpinv N N (usv kmax U S (hadj U)) X
  | Throw e => [/\ debug, e = FailedAssert, (0 < N)%N & kmax = 0%N]
  | UB => False
  end.
Proof.
  move=> H D ht kmax; have kN := hthresh_le H D toler; have nz := hthresh_nz H D ht.
  have := hinvP H kN debug (tristored false) x0 nz; rewrite /HermSVDiv_Inverse -/kmax.
  case: (HermSV_Inverse _ _ _ _ _ _ _) => [X|e|] //= [hX _].
  apply: mpinvP; have pen := hpen H kN nz; set P := Pk _ _ _ _ _ _ in pen hX.
  have -> : mx N N (fun i j => if ((j < i) && (i < N))%N then (X j i)^* else X i j) = P; last by [].
  apply/matrixP => i j; rewrite mxE ltn_ord andbT; case: ltnP => h; last by rewrite hX.
  by rewrite hX /tristored ?(ltnW h) // -(P_herm H kN).
Qed.
Print Assumptions C56_inverse.

(** makeInverse into a hermitian matrix: its stored triangle becomes that of the
    Moore-Penrose inverse, which is hermitian; nothing else is written. *)
Theorem C56_sym_inverse (C : numClosedFieldType) (debug lower : bool) (N : nat) (A U x0 : fm C) (S : fv C) (toler : C) :
  is_eigen N A U S -> descending_abs N S -> 0 <= toler ->
  let kmax := HermSVDiv_thresh N S toler in
  let stored i j := [&& i < N, j < N & if lower then j <= i else i <= j]%N in
  match HermSVDiv_SymInverse debug lower N U S kmax x0 with
  | Ok X => (exists2 P : fm C, Claims_Eigen.hermitian N P /\ mpinv N N (usv kmax U S (hadj U)) P &
                             forall i j, stored i j -> X i j = P i j) /\
            (forall i j, ~~ stored i j -> X i j = x0 i j)
  | Throw e => [/\ debug, e = FailedAssert, (0 < N)%N & kmax = 0%N]
  | UB => False
  end.
Proof.
  move=> H D ht kmax stored; have kN := hthresh_le H D toler; have nz := hthresh_nz H D ht.
  have := hinvP H kN debug (tristored lower) x0 nz; rewrite /HermSVDiv_SymInverse -/kmax.
  case: (HermSV_Inverse _ _ _ _ _ _ _) => [X|e|] //= [hX hX0].
  have pen := hpen H kN nz; have ph := P_herm H kN; set P := Pk _ _ _ _ _ _ in pen hX ph.
  pose P' i j : C := if insub i is Some a then if insub j is Some b then P a b else 0 else 0.
  have pE i j (hi : (i < N)%N) (hj : (j < N)%N) : P' i j = P (Ordinal hi) (Ordinal hj) by rewrite /P' !insubT.
  split=> //; exists P'.
    split; first by move=> i j hi hj; rewrite !pE ph.
    apply: mpinvP; have -> : mx N N P' = P; last by [].
    apply/matrixP => i j; rewrite mxE pE //; by congr (P _ _); apply: val_inj.
  move=> i j /and3P [hi hj h]; rewrite pE; exact: (hX (Ordinal hi) (Ordinal hj)).
Qed.
Print Assumptions C56_sym_inverse.

(** With TMV_DEBUG the inverse of a zero matrix cannot be had, although it is the zero matrix. *)
Theorem C56_zero_debug_refuted (C : numClosedFieldType) (N : nat) (A U x0 : fm C) (S : fv C) (toler : C) :
  is_eigen N A U S -> (0 < N)%N -> (forall i j, (i < N)%N -> (j < N)%N -> A i j = 0) ->
  HermSVDiv_Inverse true N U S (HermSVDiv_thresh N S toler) x0 = Throw FailedAssert.
Proof.
  move=> H n0 z.
  have S0 l : (l < N)%N -> S l = 0.
    move=> hl; case: H => o _ f _; apply/eqP; have := o l l hl hl; rewrite eqxx.
    apply: contra_eqT => /negbTE nz; rewrite big1 ?(eq_sym 0) ?oner_eq0 // => k _.
    have := f k l (ltn_ord k) hl; rewrite big1 => [/esym/eqP|j _]; last by rewrite z ?mul0r.
    by rewrite mulf_eq0 nz /= => /eqP ->; rewrite mulr0.
  have -> : HermSVDiv_thresh N S toler = 0%N.
    rewrite /HermSVDiv_thresh; case: eqP => // _; rewrite S0 // normr0 mul0r.
    have h n : (n <= N)%N -> thr (fun i => `|S i|) 0 n = 0%N; last exact: h.
    by elim: n => //= n IH hn; rewrite S0 // normr0 lexx IH // ltnW.
  rewrite /HermSVDiv_Inverse /HermSV_Inverse; have := DiagLDivEqP 0 N S (hadj U).
  case: (DiagLDivEq _ _ _ _) => [s|e|] /=; first by rewrite /SymMultMM n0.
    by move=> [_ _ [i]]; rewrite ltn0.
  by [].
Qed.
Print Assumptions C56_zero_debug_refuted.

(** makeInverseATA: the Moore-Penrose inverse of A^dagger A. *)
Theorem C56_inverse_ATA (C : numClosedFieldType) (N : nat) (A U : fm C) (S : fv C) (toler : C) :
  is_eigen N A U S -> descending_abs N S -> 0 <= toler ->
  let kmax := HermSVDiv_thresh N S toler in
  let B := usv kmax U S (hadj U) in
  match HermSVDiv_InverseATA N U S kmax with
  | Ok X => mpinv N N (fun i j => \sum_(l < N) (B l i)^* * B l j) X
  | _ => False
  end.
Proof.
  move=> H D ht kmax B; have kN := hthresh_le H D toler; have nz := hthresh_nz H D ht.
  have sv := svd H D.
  have hd : held N N A U (HermSVDiv_getS N S) (HermSVDiv_getVt N U S) by rewrite /held maxnn minnn /QRDiv_QRx /istrans ltnn.
  have := @ataP C N N A U _ _ kmax hd; rewrite minnn => /(_ kN).
  rewrite /HermSVDiv_InverseATA /SVDiv_InverseATA /SVDiv_getU /SVDiv_getVt /istrans ltnn minnn.
  have := DiagLDivEqP kmax N (HermSVDiv_getS N S) (HermSVDiv_getVt N U S).
  case: (DiagLDivEq _ _ _ (HermSVDiv_getVt _ _ _)) => [s|e|] /=; last by [].
    move=> [_ hs] pen; have := DiagLDivEqP kmax N S (hadj U).
    case: (DiagLDivEq _ _ _ _) => [s'|e|] /=; last by [].
      move=> [_ hs']; apply: mpinvP.
      have -> : mx N N (fun i j => \sum_(l < N) (B l i)^* * B l j) = mx N N (fun i j => \sum_(l < N)
          (usv kmax U (HermSVDiv_getS N S) (HermSVDiv_getVt N U S) l i)^* * usv kmax U (HermSVDiv_getS N S) (HermSVDiv_getVt N U S) l j).
        by apply/matrixP => i j; rewrite !mxE; apply: eq_bigr => l _; rewrite !(usvE H).
      have -> : mx N N (fun i j => \sum_(0 <= l < kmax) (s' l i)^* * s' l j) = mx N N (fun i j => \sum_(0 <= l < kmax) (s l i)^* * s l j).
        apply/matrixP => i j; rewrite !mxE !big_mkord; apply: eq_bigr => l _.
        have e (q : 'I_N) : s' l q = s l q; last by rewrite !e.
        have hl : (l < N)%N by exact: leq_trans (ltn_ord l) kN.
        rewrite hs hs' !ltn_ord /= /HermSVDiv_getS /HermSVDiv_getVt hl /=; case: ifP => // _.
        by rewrite mulrN1 invrN mulrNN.
      exact: pen.
    by move=> [_ _ [i hi z]]; have := nz i hi; rewrite z eqxx.
  move=> [_ _ [i hi]]; rewrite (absS H) => [/normr0_eq0 z|]; first by have := nz i hi; rewrite z eqxx.
  exact: leq_trans hi kN.
Qed.
Print Assumptions C56_inverse_ATA.

(** What thresh(toler) leaves out is small; with toler = 0 nothing is left out. *)
Theorem C56_truncation (C : numClosedFieldType) (N : nat) (A U : fm C) (S : fv C) (toler : C) :
  is_eigen N A U S -> descending_abs N S -> 0 <= toler ->
  let kmax := HermSVDiv_thresh N S toler in
  let B := usv kmax U S (hadj U) in
  (forall x : fv C, norm2 N (appl N (fun i j => A i j - B i j) x) <= (toler * HermSVDiv_norm2 N S) ^+ 2 * norm2 N x) /\
  (toler = 0 -> forall i j, (i < N)%N -> (j < N)%N -> B i j = A i j).
Proof.
  move=> H D ht kmax B; have kN := hthresh_le H D toler.
  have sv : is_svd (maxn N N) (minn N N) (if (N < N)%N then trm A else A) U (HermSVDiv_getS N S) (HermSVDiv_getVt N U S).
    by rewrite maxnn minnn ltnn; exact: svd.
  have [h1 h2] := C51_truncation sv ht.
  have eB i j : usv (SVDiv_thresh (minn N N) (HermSVDiv_getS N S) toler) (SVDiv_getU N N U (HermSVDiv_getVt N U S)) (HermSVDiv_getS N S)
      (SVDiv_getVt N N U (HermSVDiv_getVt N U S)) i j = B i j.
    by rewrite /SVDiv_getU /SVDiv_getVt /istrans ltnn minnn -(threshE H) (usvE H).
  have en : SVDiv_norm2 (minn N N) (HermSVDiv_getS N S) = HermSVDiv_norm2 N S.
    by rewrite minnn /SVDiv_norm2 /HermSVDiv_norm2; case: ltnP => // h; rewrite (absS H).
  split=> [x|e i j hi hj]; last by rewrite -eB h2.
  have := h1 x; rewrite en; congr (_ <= _); apply: eq_bigr => i _; congr (`|_| ^+ 2); apply: eq_bigr => j _.
  by rewrite eB.
Qed.
Print Assumptions C56_truncation.

(** norm2() and condition(): the greatest factor by which A stretches a vector, and its ratio
    to the least. *)
Theorem C56_norms (C : numClosedFieldType) (N : nat) (A U : fm C) (S : fv C) :
  is_eigen N A U S -> descending_abs N S -> (0 < N)%N ->
  max_stretch N N A (HermSVDiv_norm2 N S) /\
  exists2 s, min_stretch N N A s & HermSVDiv_condition N S = HermSVDiv_norm2 N S / s.
Proof.
  move=> H D n0.
  have sv : is_svd (maxn N N) (minn N N) (if (N < N)%N then trm A else A) U (HermSVDiv_getS N S) (HermSVDiv_getVt N U S).
    by rewrite maxnn minnn ltnn; exact: svd.
  have := C51_norms sv; rewrite minnn => /(_ n0) [h1 [s [h2 _ h3]]].
  have en : SVDiv_norm2 N (HermSVDiv_getS N S) = HermSVDiv_norm2 N S.
    by rewrite /SVDiv_norm2 /HermSVDiv_norm2 n0 (absS H).
  rewrite -en; split=> //; exists s; first exact: h2.
  rewrite -h3 /HermSVDiv_condition /SVDiv_condition n0 !(absS H) //; last by lia.
  by rewrite normrM normfV.
Qed.
Print Assumptions C56_norms.

(** isSingular() after thresh(toler), and after thresh(0). *)
Theorem C56_singular (C : numClosedFieldType) (N : nat) (A U : fm C) (S : fv C) (toler : C) :
  is_eigen N A U S -> descending_abs N S -> 0 <= toler ->
  (HermSVDiv_isSingular N (HermSVDiv_thresh N S toler) <-> (0 < N)%N /\ `|S N.-1| <= toler * HermSVDiv_norm2 N S) /\
  (toler = 0 -> HermSVDiv_isSingular N (HermSVDiv_thresh N S toler) <-> \det (mx N N A) = 0).
Proof.
  move=> H D ht.
  have first : HermSVDiv_isSingular N (HermSVDiv_thresh N S toler) <-> (0 < N)%N /\ `|S N.-1| <= toler * HermSVDiv_norm2 N S.
    rewrite /HermSVDiv_isSingular /HermSVDiv_thresh /HermSVDiv_norm2; case: (posnP N) => [->|n0]; first by split=> // -[].
    case En : N n0 => [//|k] _ /=; rewrite [`|S 0%N| * _]mulrC; case: ifP => h.
      by split=> // _; apply: leq_ltn_trans (thr_le _ _ _) _.
    by rewrite ltnn; split=> // -[].
  split=> // e; rewrite first e mul0r normr_le0; have [_ -> _] := C55_spectrum H.
  split=> [[n0 /eqP z]|/eqP].
    have h : (N.-1 < N)%N by lia.
    by rewrite (bigD1 (Ordinal h)) //= z mul0r.
  rewrite prodf_seq_eq0 => /hasP [l _ /= /eqP z].
  have n0 : (0 < N)%N := leq_ltn_trans (leq0n _) (ltn_ord l); split=> //.
  have mono k : (l <= k)%N -> (k < N)%N -> S k = 0.
    elim: k => [|k IH] h1 h2; first by rewrite -z; congr S; lia.
    move: h1; rewrite leq_eqVlt => /orP [/eqP <- //|h1].
    have := D k h2; rewrite IH ?normr0 ?normr_le0; [by move/eqP|lia|lia].
  by apply/eqP/mono; have := ltn_ord l; lia.
Qed.
Print Assumptions C56_singular.

(** det(). *)
Theorem C56_det (C : numClosedFieldType) (N : nat) (A U : fm C) (S : fv C) :
  is_eigen N A U S -> HermSVDiv_det N S = \det (mx N N A).
Proof. by move=> H; have [_ -> _] := C55_spectrum H; rewrite /HermSVDiv_det big_mkord. Qed.
Print Assumptions C56_det.

(** After top(neigen). *)
Theorem C56_top (C : numClosedFieldType) (N K neigen : nat) (A U m x0 : fm C) (S : fv C) :
  is_eigen N A U S -> descending_abs N S -> (0 < neigen)%N ->
  let kmax := HermSVDiv_top N neigen in
  kmax = minn neigen N /\
  match HermSVDiv_LDiv N K U S kmax m x0 with
  | Ok X => forall c, (c < K)%N -> mnls N N (usv kmax U S (hadj U)) (fun k => X k c) (fun i => m i c)
  | Throw e => e = Singular /\ exists2 i, (i < kmax)%N & S i = 0
  | UB => False
  end.
Proof.
  move=> H D hn kmax; have ek : kmax = minn neigen N by rewrite /kmax /HermSVDiv_top; case: ltnP; lia.
  split=> //; have kN : (kmax <= N)%N by lia.
  have := @SV_LDivP C N N U S (hadj U) kmax K m x0; rewrite /HermSVDiv_LDiv.
  case: (SV_LDiv _ _ _ _ _ _ _ _ _) => [X|e|] //=.
    move=> [nz e] c hc; have K0 : (0 < K)%N := leq_ltn_trans (leq0n c) hc.
    by apply: mnls_col (hpen H kN (nz K0)) e hc.
  by move=> [-> _ [i hi z]]; split=> //; exists i.
Qed.
Print Assumptions C56_top.

(** From the matrix to the solution: a hermitian matrix, of which only the lower triangle is
    read, decomposed and used; when it is not singular, A X = m. *)
Theorem C56_solve (C : numClosedFieldType) (under : C -> bool) (dclim nb tb : nat)
    (dc : nat -> nat -> nat -> tst C -> run (tst C)) blk stdsort (fuel N K : nat)
    (A A0 U m x0 : fm C) (L : fv C) (w : hwork C) :
  (forall x, under x = (x == 0)) -> (0 < nb)%N -> std_sort_contract stdsort ->
  (N < tb * 2)%N -> (N <= dclim)%N -> Claims_Eigen.hermitian N A ->
  (forall i j, (j <= i < N)%N -> A0 i j = A i j) ->
  match HermSVDiv_ctor 0 under dclim nb tb dc blk stdsort fuel N A0 U L w with
  | Ok (Some (U', S', kmax)) =>
      match HermSVDiv_LDiv N K U' S' kmax m x0 with
      | Ok X => (forall c, (c < K)%N -> mnls N N A (fun k => X k c) (fun i => m i c)) /\
                (\det (mx N N A) != 0 -> forall i c, (i < N)%N -> (c < K)%N -> \sum_(k < N) A i k * X k c = m i c)
      | _ => False
      end
  | Ok None => True
  | _ => False
  end.
Proof.
  move=> h1 h2 h3 ht hd hA hA0; rewrite /HermSVDiv_ctor.
  have hU i j : (j <= i < N)%N -> setlow N A0 U i j = A i j by move=> h; rewrite -hA0 // /setlow h.
  have := C55_herm_sv_decompose dc blk fuel L w h1 h2 h3 ht hd hA hU.
  case: (HermSV_Decompose _ _ _ _ _ _ _ _ _ _ _ _ _) => [[[U' S']|]|e|] //= [iE de].
  have [dv _] := C56_division K m x0 iE de (lexx 0).
  have [_ /(_ erefl) tr] := C56_truncation iE de (lexx 0).
  have [_ /(_ erefl) sg] := C56_singular iE de (lexx 0).
  move: dv tr sg; set kmax := HermSVDiv_thresh N S' 0.
  case: (HermSVDiv_LDiv _ _ _ _ _ _ _) => [X|//|//] /= dv tr sg.
  have ex (x : fv C) i : (i < N)%N -> \sum_(j < N) usv kmax U' S' (hadj U') i j * x j = \sum_(j < N) A i j * x j.
    by move=> hi; apply: eq_bigr => j _; rewrite tr.
  have er (x b : fv C) : resid2 N N (usv kmax U' S' (hadj U')) x b = resid2 N N A x b.
    by apply: eq_bigr => i _; congr (`|_| ^+ 2); rewrite ex.
  have ls c : (c < K)%N -> mnls N N A (fun k => X k c) (fun i => m i c).
    by move=> hc; have [l1 l2] := dv c hc; split=> y; have := l1 y; have := l2 y; rewrite !er.
  split=> // d i c hi hc.
  have [l1 _] := ls c hc.
  have uA : mx N N A \in unitmx by rewrite unitmxE unitfE.
  pose y := invmx (mx N N A) *m vec N (fun i => m i c).
  pose y' : fv C := fun k => if insub k is Some a then y a 0 else 0.
  have ey : vec N y' = y.
    by apply/matrixP => a b; rewrite mxE ord1 /y' insubT ?ltn_ord // => h; congr (y _ _); apply: val_inj.
  have := l1 y'; rewrite !resid2E ey /y mulmxA mulmxV // mul1mx subrr.
  rewrite [X in _ <= X]/nsq big1 => [h|a _]; last by rewrite mxE mul0r.
  have /nsq0 z : nsq (mx N N A *m vec N (fun k => X k c) - vec N (fun i => m i c)) = 0.
    by apply: le_anti; rewrite h nsq_ge0.
  move/eqP: z; rewrite subr_eq0 => /eqP/matrixP/(_ (Ordinal hi) 0); rewrite !mxE => <-.
  by apply: eq_bigr => k _; rewrite !mxE.
Qed.
Print Assumptions C56_solve.

(** A case with a negative eigenvalue: diag(-3, 2), with (6, 4) on the right. *)
Example C56_example (C : numClosedFieldType) (x0 : fm C) :
  let A : fm C := fun i j => if i == j then (if i == 0%N then -3%:R else 2%:R) else 0 in
  let U : fm C := fun i j => (i == j)%:R in
  let S : fv C := fun i => if i == 0%N then -3%:R else 2%:R in
  [/\ is_eigen 2 A U S, descending_abs 2 S, HermSVDiv_thresh 2 S 0 = 2%N, HermSVDiv_getS 2 S 0%N = 3%:R &
      HermSVDiv_isSingular 2 (HermSVDiv_thresh 2 S 0) = false].
Proof.
  move=> A U S.
  have nz : `|S 1%N| <= `|S 0%N| * 0 = false.
    by rewrite mulr0 normr_le0 /S /= pnatr_eq0.
  split.
  - split.
    + by move=> [|[|i]] [|[|j]] // _ _; rewrite !big_ord_recl big_ord0 /U /= ?conjC0 ?conjC1 ?mulr0 ?mul0r ?mulr1 ?addr0 ?add0r.
    + by move=> [|[|i]] // _; rewrite /S /= ?rpredN ?realn.
    + by move=> [|[|i]] [|[|l]] // _ _; rewrite !big_ord_recl big_ord0 /U /S /A /= ?mulr0 ?mul0r ?mulr1 ?addr0 ?add0r.
    + by move=> [|[|i]] [|[|l]] // _ _; rewrite !big_ord_recl big_ord0 /U /S /A /= ?conjC0 ?conjC1 ?mulr0 ?mul0r ?mulr1 ?mul1r ?addr0 ?add0r.
  - by move=> [|k] // _; rewrite /S /= normrN !normr_nat ler_nat.
  - by rewrite /HermSVDiv_thresh /= nz.
  - by rewrite /HermSVDiv_getS /S /= oppr_lt0 ltr0n /= opprK.
  - by rewrite /HermSVDiv_isSingular /HermSVDiv_thresh /= nz.
Qed.
