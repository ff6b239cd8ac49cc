(** LU decomposition of a square band matrix with partial pivoting:
    src/TMV_BandLUDecompose.cpp (the code without LAPACK), and the packed form of
    P*L it leaves, src/TMV_BandLUDiv.cpp.  Exact arithmetic.  An access to an element
    outside the band that was allocated is UB. *)
From mathcomp Require Import all_ssreflect all_fingroup all_algebra zify.
From Verif Require Import Base FMat TriSolve RowPerm LU LUProofs BandTri.
Set Implicit Arguments. Unset Strict Implicit. Unset Printing Implicit Defensive.
Import GRing.Theory Num.Theory Order.Theory.
Local Open Scope ring_scope.

Section Model.
Variable F : numFieldType.
Implicit Types (A V L m : fm F) (P : nat -> nat).

(** okij, include/tmv/TMV_BandMatrix.h:  the element exists. *)
Definition inb (N nlo nhi i j : nat) : bool :=
  [&& (i < N)%N, (j < N)%N, (i <= j + nlo)%N & (j <= i + nhi)%N].
(** A.col(c,lo,hi), A.row(r,lo,hi) and A.subMatrix(i1,i2,j1,j2) lie inside the band. *)
Definition colok (N nlo nhi c lo hi : nat) : bool :=
  (hi <= lo)%N || inb N nlo nhi lo c && inb N nlo nhi hi.-1 c.
Definition rowok (N nlo nhi r lo hi : nat) : bool :=
  (hi <= lo)%N || inb N nlo nhi r lo && inb N nlo nhi r hi.-1.
Definition subok (N nlo nhi i1 i2 j1 j2 : nat) : bool :=
  [|| (i2 <= i1)%N, (j2 <= j1)%N | inb N nlo nhi i2.-1 j1 && inb N nlo nhi i1 j2.-1].

(** Swap(A.row(a,lo,hi), A.row(b,lo,hi)). *)
Definition swapseg (lo hi a b : nat) A : fm F :=
  fun i c => if (lo <= c < hi)%N then A (tsw a b i) c else A i c.
(** A.subMatrix(j+1,i2,j+1,j2) -= A.col(j,j+1,i2) ^ A.row(j,j+1,j2). *)
Definition rank1sub (j i2 j2 : nat) A : fm F :=
  fun i c => if (j < i < i2)%N && (j < c < j2)%N then A i c - A i j * A j c else A i c.

(** One pass of the loop of NonLapBandLU_Decompose, TMV_BandLUDecompose.cpp:113-141. *)
Definition bstep (N nlo nhi j : nat) (S : fm F * (nat -> nat) * (nat * nat)) :
  outcome (fm F * (nat -> nat) * (nat * nat)) :=
  let: (A, P, (endcol, endrow)) := S in
  if ~~ colok N nlo nhi j j endcol then UB else
  let ip := amax (fun i => A i j) j (endcol - j) in
  let: (A, ip) := if `|A ip j| == 0 then (zerocol j j endcol A, j) else (A, ip) in
  if (ip != j) && ~~ (rowok N nlo nhi ip j endrow && rowok N nlo nhi j j endrow) then UB else
  let A := if ip != j then swapseg j endrow ip j A else A in
  let P := updv P j ip in
  let A := if A j j != 0 then divcol j j.+1 endcol (A j j) A else A in
  if ~~ [&& colok N nlo nhi j j.+1 endcol, rowok N nlo nhi j j.+1 endrow & subok N nlo nhi j.+1 endcol j.+1 endrow]
  then UB else
  Ok (rank1sub j endcol endrow A, P,
      (if (endcol < N)%N then endcol.+1 else endcol, if (endrow < N)%N then endrow.+1 else endrow)).

(** NonLapBandLU_Decompose, 46-146. *)
Definition NonLapBandLU (N nlo nhi : nat) A P : outcome (fm F * (nat -> nat)) :=
  bindO (loop (up N.-1) (bstep N nlo nhi) (A, P, (nlo.+1, nhi.+1))) (fun S =>
  Ok (S.1.1, updv S.1.2 N.-1 N.-1)).

(** One pass of the loop of NonLapTriDiagLU_Decompose, 171-203: the elements are
    reached by pointers to the three diagonals, each of which must exist. *)
Definition tstep (N nlo nhi j : nat) (S : fm F * (nat -> nat)) : outcome (fm F * (nat -> nat)) :=
  let: (A, P) := S in
  if ~~ [&& inb N nlo nhi j j, inb N nlo nhi j.+1 j, inb N nlo nhi j j.+1 & inb N nlo nhi j.+1 j.+1] then UB else
  let pivot := `|A j j| < `|A j.+1 j| in
  if (pivot && (j.+2 < N)%N) && ~~ (inb N nlo nhi j j.+2 && inb N nlo nhi j.+1 j.+2) then UB else
  let: (A, P) :=
    if pivot then
      let A := swapseg j j.+1 j.+1 j A in
      let A := if (j.+1 < N)%N then swapseg j.+1 j.+2 j.+1 j A else A in
      let A := if (j.+2 < N)%N then swapseg j.+2 j.+3 j.+1 j A else A in
      (A, updv P j j.+1)
    else (A, updv P j j) in
  let A := if A j j == 0 then updm (updm A j.+1 j 0) j j 0
           else updm A j.+1 j (A j.+1 j / A j j) in
  let A := updm A j.+1 j.+1 (A j.+1 j.+1 - A j.+1 j * A j j.+1) in
  Ok (if pivot && (j.+2 < N)%N then updm A j.+1 j.+2 (A j.+1 j.+2 - A j.+1 j * A j j.+2) else A, P).

(** NonLapTriDiagLU_Decompose, 148-206. *)
Definition NonLapTriDiagLU (N nlo nhi : nat) A P : outcome (fm F * (nat -> nat)) :=
  bindO (loop (up N.-1) (tstep N nlo nhi) (A, P)) (fun S => Ok (S.1, updv S.2 N.-1 N.-1)).

(** LU_Decompose(BandMatrixView, P, Anhi), 381-416. *)
Definition BandLU_Decompose (iscm : bool) (N nlo nhi : nat) A P : outcome (fm F * (nat -> nat)) :=
  if (0 < nlo)%N then
    if (0 < N)%N then
      (if iscm then NonLapBandLU N nlo nhi A P else NonLapTriDiagLU N nlo nhi A P)
    else Ok (A, P)
  else Ok (A, fun i => if (i < N)%N then i else P i).

(** LU_PackedPL_Unpack, TMV_BandLUDiv.cpp:46-72: the strictly lower part of L after
    the first n passes.  (With nlo == 0 L is set to the identity, which is what the
    loop would also leave.) *)
Definition unpk (N nlo : nat) V P (n : nat) : fm F :=
  foldl (fun L i =>
    let L := swapseg 0 i i (P i) L in
    fun r c => if (c == i) && (i < r < minn (i + nlo).+1 N)%N then V r i else L r c)
    (fun _ _ => 0) (iota 0 n).
Definition PackedPL_Unpack (N nlo : nat) V P : fm F :=
  if nlo == 0%N then fun _ _ => 0 else unpk N nlo V P N.

(** LU_PackedPL_LDivEq, 79-110, for K columns. *)
Definition PackedPL_LDivEq (N nlo K : nat) V P m : fm F :=
  if (0 < nlo)%N then
    (foldl (fun (S : fm F * nat) j =>
      let: (m, jn) := S in
      (outersub j j.+1 jn K V (swaprows K j (P j) m), if (jn < N)%N then jn.+1 else jn))
      (m, nlo.+1) (iota 0 N.-1)).1
  else m.

(** LU_PackedPL_RDivEq, for K rows: the columns j = N-2, ..., 0. *)
Definition colsub (j lo hi K : nat) V m : fm F :=
  fun r c => if (c == j) && (r < K)%N then m r j - \sum_(lo <= k < hi) m r k * V k j else m r c.
Definition swapcols (K a b : nat) m : fm F := fun r c => if (r < K)%N then m r (tsw a b c) else m r c.
Definition PackedPL_RDivEq (N nlo K : nat) V P m : fm F :=
  if (0 < nlo)%N then
    (foldl (fun (S : fm F * (nat * nat)) j =>
      let: (m, (jn, k)) := S in
      (swapcols K j (P j) (colsub j j.+1 jn K V m), if (0 < k)%N then (jn, k.-1) else (jn.-1, k)))
      (m, (N, nlo.-1)) (rev (iota 0 N.-1))).1
  else m.
End Model.

(** * Proofs *)
Section Proofs.
Variable F : numFieldType.
Implicit Types (A V L m : fm F) (P : nat -> nat).

Lemma unpkS N nlo V P n r c : unpk N nlo V P n.+1 r c =
  if (c == n) && (n < r < minn (n + nlo).+1 N)%N then V r n
  else if (c < n)%N then unpk N nlo V P n (tsw n (P n) r) c else unpk N nlo V P n r c.
Proof.
  have -> : unpk N nlo V P n.+1 = foldl (fun L i =>
    let L := swapseg 0 i i (P i) L in
    fun r c => if (c == i) && (i < r < minn (i + nlo).+1 N)%N then V r i else L r c)
    (fun _ _ => 0) (iota 0 n ++ [:: n]) by rewrite /unpk -[in LHS](addn1 n) iotaD.
  by rewrite foldl_cat.
Qed.

Lemma unpk_ge N nlo V P n r c : (n <= c)%N -> unpk N nlo V P n r c = 0.
Proof.
  elim: n r c => [//|n IH] r c Hc; rewrite unpkS ifN; last by lia.
  rewrite ifN; last by lia. by apply: IH; lia.
Qed.

Lemma unpk_ext N nlo V V' P P' n r c : (forall i k, (k < n)%N -> V i k = V' i k) ->
  (forall k, (k < n)%N -> P k = P' k) -> unpk N nlo V P n r c = unpk N nlo V' P' n r c.
Proof.
  elim: n r c => [//|n IH] r c HV HP; rewrite !unpkS HP // HV //.
  by case: ifP => // _; case: ifP => _; apply: IH => [i k Hk|k Hk]; rewrite ?HV ?HP //; lia.
Qed.

(** The matrix L after n passes, in rows and columns. *)
Lemma unpk_lowS N nlo V P n i k : (k < n)%N -> (n <= P n)%N ->
  lower true (unpk N nlo V P n.+1) i k = lower true (unpk N nlo V P n) (tsw n (P n) i) k.
Proof.
  move=> Hk HP; rewrite /lower unpkS.
  have -> : (k == n) = false by lia.
  have E1 : (i == k) = (tsw n (P n) i == k) by rewrite /tsw; case: (i =P n) => [|_]; [lia | case: (i =P P n); lia].
  have E2 : (k < i)%N = (k < tsw n (P n) i)%N by rewrite /tsw; case: (i =P n) => [|_]; [lia | case: (i =P P n); lia].
  by rewrite Hk E1 E2.
Qed.

(** One column of the elimination. *)
Definition colinv (N nlo : nat) V P (j : nat) (w a0 : fv F) : Prop :=
  forall i, (i < N)%N ->
    \sum_(0 <= k < j) lower true (unpk N nlo V P j) i k * w k + (if (j <= i)%N then w i else 0) = a0 (psig P 0 j i).

Definition mult (N nlo : nat) V (i j : nat) : F := if (j < i < minn (j + nlo).+1 N)%N then V i j else 0.

Lemma colstep N nlo V P j w w' a0 : (j < N)%N -> (j <= P j < N)%N -> 
  colinv N nlo V P j w a0 ->
  (forall k, (k < j)%N -> w' k = w k) -> w' j = w (P j) ->
  (forall i, (j < i < N)%N -> w (tsw j (P j) i) = mult N nlo V i j * w' j + w' i) ->
  colinv N nlo V P j.+1 w' a0.
Proof.
  move=> Hj Hp I g1 g2 g3 i Hi.
  have Hi' : (tsw j (P j) i < N)%N by apply: tsw_lt; lia.
  rewrite psigS add0n -(I _ Hi') big_nat_recr //= -addrA; congr (_ + _).
    apply: eq_big_nat => k Hk; rewrite g1; last by lia.
    by rewrite unpk_lowS //; lia.
  have Ed : lower true (unpk N nlo V P j.+1) i j = if i == j then 1 else if (j < i)%N then mult N nlo V i j else 0.
    rewrite /lower; case: (i =P j) => // Ne; case: ltnP => // h.
    rewrite unpkS eqxx /mult /=; case: ifP => // _.
    by rewrite ltnn unpk_ge.
  rewrite Ed; case: (ltngtP i j) => h.
  - rewrite mul0r add0r /tsw !ifN //; lia.
  - by rewrite [in RHS]ifT ?g3 //; [lia | rewrite /tsw; case: ifP => _; [lia | case: ifP; lia]].
  - have E : tsw j (P j) j = P j by rewrite /tsw eqxx.
    by rewrite h mul1r addr0 g2 E ifT //; lia.
Qed.

Section Dec.
(** N x N, nlo sub- and hi0 superdiagonals, of the second kind nhi allocated. *)
Variables (N nlo hi0 nhi : nat) (A0 : fm F) (P0 : nat -> nat).
Hypotheses (Hlo : (nlo < N)%N) (Hhi : (hi0 < N)%N) (Hnhi : nhi = minn (nlo + hi0) N.-1).

Definition wcol V j c : fv F :=
  fun k => if (k < j)%N then upper false (bandm 0 nhi V) k c else if (j <= c)%N then bandm nlo nhi V k c else 0.

Definition binv (j : nat) V P : Prop :=
  [/\ forall k, (k < j)%N -> (k <= P k < N)%N && (P k <= k + nlo)%N,
      forall c, (c < N)%N -> colinv N nlo V P j (wcol V j c) (fun i => bandm nlo hi0 A0 i c),
      forall i c, (j <= i < N)%N -> (c < N)%N -> (i + hi0 < c)%N -> (j + nhi <= c)%N -> bandm nlo nhi V i c = 0,
      forall k i, (k < j)%N -> (k < i < minn (k + nlo).+1 N)%N -> `|V i k| <= 1
    & (forall i c, ~~ inb N nlo nhi i c -> V i c = A0 i c) /\ (forall k, (j <= k)%N -> P k = P0 k)].

Lemma bandm_up V j c : (j <= c)%N -> bandm 0 nhi V j c = bandm nlo nhi V j c.
Proof.
  move=> h; rewrite /bandm; have -> : (j <= c + 0)%N by lia. by have -> : (j <= c + nlo)%N by lia.
Qed.

Lemma binv_step j V V' P p : (j < N)%N -> binv j V P -> (j <= p < N)%N -> (p <= j + nlo)%N ->
  (forall i c, (c < j)%N || (i < j)%N -> V' i c = V i c) ->
  (forall c, (j <= c < N)%N -> bandm nlo nhi V' j c = bandm nlo nhi V p c) ->
  (forall i c, (j < i < N)%N -> (j < c < N)%N ->
     bandm nlo nhi V (tsw j p i) c = mult N nlo V' i j * bandm nlo nhi V' j c + bandm nlo nhi V' i c) ->
  (forall i, (j < i < N)%N -> bandm nlo nhi V (tsw j p i) j = mult N nlo V' i j * bandm nlo nhi V' j j) ->
  (forall i c, (j < i < N)%N -> (c < N)%N -> (i + hi0 < c)%N -> (j.+1 + nhi <= c)%N -> bandm nlo nhi V' i c = 0) ->
  (forall i, (j < i < minn (j + nlo).+1 N)%N -> `|V' i j| <= 1) ->
  (forall i c, ~~ inb N nlo nhi i c -> V' i c = A0 i c) ->
  binv j.+1 V' (updv P j p).
Proof.
  move=> Hj [I1 I2 I3 I4 [I5 I6]] Hp Hp2 s0 s1 s2 s3 s4 s5 s6.
  have Ep : updv P j p j = p by rewrite /updv eqxx.
  have En k : (k < j)%N -> updv P j p k = P k by move=> h; rewrite /updv ifN //; lia.
  have Ht i : (j < i)%N -> (j <= tsw j p i)%N by move=> h; apply: tsw_ge; lia.
  split.
  - move=> k Hk; case: (k =P j) => [->|Nk]; first by rewrite Ep Hp.
    by rewrite En; [apply: I1|]; lia.
  - move=> c Hc; apply: (colstep (w := wcol V j c)) => //; rewrite ?Ep //.
    + move=> i Hi; rewrite -(psig_ext (P := P)); last by move=> k Hk; rewrite En //; lia.
      rewrite -(I2 c Hc i Hi); congr (_ + _); apply: eq_big_nat => k Hk; congr (_ * _).
      have Ex : unpk N nlo V' (updv P j p) j i k = unpk N nlo V P j i k.
        by apply: unpk_ext => [i' k' Hk'|k' Hk']; [rewrite s0 // Hk' | rewrite En].
      by rewrite /lower Ex.
    + move=> k Hk; rewrite /wcol ifT; last by lia. rewrite Hk /upper /bandm.
      by rewrite s0 // Hk orbT.
    + have h1 : (p < j)%N = false by lia.
      rewrite /wcol h1 ltnSn; case: (leqP j c) => h; last by rewrite upper_gt.
      rewrite -s1; last by lia.
      case: (j =P c) => [<-|Ne]; first by rewrite upper_diag bandm_up.
      by rewrite upper_lt ?bandm_up //; lia.
    + move=> i Hi; have h1 : (tsw j p i < j)%N = false by have := Ht i; lia.
      have h2 : (i < j.+1)%N = false by lia.
      rewrite /wcol h1 h2 ltnSn; case: (ltngtP j c) => h.
      * rewrite s2 //; last by lia.
        by rewrite upper_lt // bandm_up // ltnW.
      * by rewrite upper_gt // mulr0 addr0.
      * by rewrite -h s3 // addr0 upper_diag bandm_up.
  - by move=> i c Hi Hc h1 h2; apply: s4.
  - move=> k i Hk Hi; case: (k =P j) => [Ek|Nk]; first by subst k; apply: s5.
    by rewrite s0 ?I4 //; lia.
  - split=> // k Hk; rewrite /updv ifN ?I6 //; lia.
Qed.

Lemma binv_last V P : binv N.-1 V P -> binv N V (updv P N.-1 N.-1).
Proof.
  move=> I; have E : N.-1.+1 = N by lia.
  have [_ _ _ _ [I5 _]] := I.
  have K : binv N.-1.+1 V (updv P N.-1 N.-1).
    by apply: (binv_step _ I) => //; try (by move=> *; lia); lia.
  by rewrite E in K.
Qed.

Lemma binv_start : (forall i c, (i < N)%N -> (c < N)%N -> (i + hi0 < c <= i + nhi)%N -> A0 i c = 0) -> binv 0 A0 P0.
Proof.
  move=> H; have E i c : (i < N)%N -> (c < N)%N -> bandm nlo nhi A0 i c = bandm nlo hi0 A0 i c.
    move=> Hi Hc; rewrite /bandm; case: (i <= c + nlo)%N => //=.
    case: (leqP c (i + nhi)) => h1; case: (leqP c (i + hi0)) => h2 //; first by apply: H; lia.
    by lia.
  split=> //.
  - by move=> c Hc i Hi; rewrite big_geq // add0r /wcol /= E.
  - move=> i c Hi Hc h1 h2; rewrite /bandm; case: ifP => // h; apply: H; lia.
Qed.

Definition bspec V P : Prop :=
  [/\ forall k, (k < N)%N -> (k <= P k < N)%N && (P k <= k + nlo)%N,
      forall i c, (i < N)%N -> (c < N)%N ->
        \sum_(0 <= k < N) lower true (unpk N nlo V P N) i k * upper false (bandm 0 nhi V) k c
          = bandm nlo hi0 A0 (psig P 0 N i) c,
      forall k i, (k < N)%N -> (k < i < minn (k + nlo).+1 N)%N -> `|V i k| <= 1
    & (forall i c, ~~ inb N nlo nhi i c -> V i c = A0 i c) /\ (forall k, (N <= k)%N -> P k = P0 k)].

Lemma binv_end V P : binv N V P -> bspec V P.
Proof.
  move=> [I1 I2 _ I4 I5]; split=> // i c Hi Hc.
  rewrite -(I2 c Hc i Hi) ifN -?ltnNge // addr0; apply: eq_big_nat => k Hk.
  by rewrite /wcol ifT.
Qed.

(** One elimination step, given pointwise: rows j and ip exchanged in the columns
    [j,er), multipliers l, the rows (j,ec) reduced. *)
Lemma binv_elim j A P ip (l : fv F) V' : (j < N.-1)%N -> binv j A P ->
  let ec := minn N (j + nlo).+1 in let er := minn N (j + nhi).+1 in
  let A1 := fun i c => if (j <= c < er)%N then A (tsw j ip i) c else A i c in
  (j <= ip < ec)%N ->
  (forall i c, V' i c = if (j < i < ec)%N && (j < c < er)%N then A1 i c - l i * A1 j c
                        else if (c == j) && (j < i < ec)%N then l i else A1 i c) ->
  (forall i, (j < i < ec)%N -> l i * A1 j j = A1 i j) ->
  (forall i, (j < i < ec)%N -> `|l i| <= 1) ->
  binv j.+1 V' (updv P j ip).
Proof.
  move=> Hj I ec er A1 Hip EV El El1; have [I1 I2 I3 I4 [I5 I6]] := I.
  have Hec : (j < ec)%N by rewrite /ec; lia.
  have HB i c : (j <= i < ec)%N -> (j <= c < er)%N -> bandm nlo nhi A i c = A i c.
    by move=> Hi Hc; rewrite /bandm ifT //; rewrite /ec /er in Hi Hc; lia.
  have HB0 i c : (j <= i < ec)%N -> (er <= c < N)%N -> bandm nlo nhi A i c = 0.
    by move=> Hi Hc; apply: I3; rewrite /ec /er in Hi Hc; lia.
  have EA1 i c : A1 i c = if (j <= c < er)%N then A (tsw j ip i) c else A i c by [].
  have Her : (j < er)%N by rewrite /er; lia.
  have E1j c : (j <= c < er)%N -> A1 j c = A ip c by move=> h; rewrite EA1 h /tsw eqxx.
  have Ht i : (j < i < ec)%N -> (j <= tsw j ip i < ec)%N.
    by move=> h; rewrite tsw_ge ?tsw_lt //; lia.
  have Ht2 i : (ec <= i)%N -> tsw j ip i = i by move=> h; rewrite tsw_out //; lia.
  have Ht3 i : (i < j)%N -> tsw j ip i = i by move=> h; rewrite tsw_out //; lia.
  have Esame i c : ~~ ((j <= i < ec)%N && (j <= c < er)%N) -> V' i c = A i c.
    move=> h; rewrite EV; have -> : (j < i < ec)%N && (j < c < er)%N = false by lia.
    have -> : (c == j) && (j < i < ec)%N = false by lia.
    rewrite EA1; case: ifP => // hc; congr A.
    by case: (ltnP i j) => h'; [exact: Ht3 | apply: Ht2; lia].
  have EVj c : (j <= c < er)%N -> V' j c = A ip c.
    by move=> h; rewrite EV ltnn andbF /= E1j.
  have EVl i : (j < i < ec)%N -> V' i j = l i by move=> h; rewrite EV ltnn /= andbF eqxx h.
  have HBV i c : (j <= i < ec)%N -> (j <= c < er)%N -> bandm nlo nhi V' i c = V' i c.
    by move=> Hi Hc; rewrite /bandm ifT //; rewrite /ec /er in Hi Hc; lia.
  have HBsame i c : ~~ ((j <= i < ec)%N && (j <= c < er)%N) -> bandm nlo nhi V' i c = bandm nlo nhi A i c.
    by move=> h; rewrite /bandm Esame.
  have Em i : (j < i < N)%N -> mult N nlo V' i j = if (i < ec)%N then l i else 0.
    move=> Hi; rewrite /mult; case: (ltnP i ec) => h; last by rewrite ifN //; rewrite /ec in h; lia.
    by rewrite ifT ?EVl //; rewrite /ec in h; lia.
  have HjN : (j < N)%N by lia.
  have Hec2 : (ec <= N)%N by rewrite /ec; lia.
  have Hec3 : (ec <= (j + nlo).+1)%N by rewrite /ec; lia.
  apply: (binv_step HjN I) => //; try lia.
  - by move=> i c h; apply: Esame; lia.
  - move=> c Hc; case: (ltnP c er) => h; first by rewrite HBV ?EVj ?HB //; lia.
    rewrite HBsame; last by lia. by rewrite !HB0 //; lia.
  - move=> i c Hi Hc; rewrite Em //; case: (ltnP i ec) => h; last first.
      by rewrite mul0r add0r HBsame ?Ht2 //; lia.
    have := Ht i; case: (ltnP c er) => h' Hti.
      rewrite HB ?HBV ?EVj ?EV; try lia. rewrite ifT ?E1j ?EA1; try lia.
      rewrite ifT; last by lia. by rewrite addrC subrK.
    by rewrite !HBsame ?HB0 ?mulr0 ?addr0 //; lia.
  - move=> i Hi; rewrite Em //; case: (ltnP i ec) => h; last first.
      by rewrite mul0r Ht2 // /bandm ifN //; rewrite /ec in h; lia.
    have := Ht i => Hti; rewrite HB ?HBV ?EVj; try lia.
    have := El i; rewrite E1j ?leqnn // EA1 leqnn Her /= => -> //; lia.
  - move=> i c Hi Hc h3 h4; rewrite HBsame; last by rewrite /er; lia.
    by apply: I3; lia.
  - by move=> i Hi; rewrite EVl ?El1 //; rewrite /ec; lia.
  - move=> i c h; rewrite Esame ?I5 //; rewrite /inb in h; rewrite /ec /er; lia.
Qed.

(** The general algorithm. *)
Lemma bstepP j A P : (j < N.-1)%N -> binv j A P ->
  post (fun S => binv j.+1 S.1.1 S.1.2 /\ S.2 = (minn N (j.+1 + nlo).+1, minn N (j.+1 + nhi).+1)) (fun _ => False)
    (bstep N nlo nhi j (A, P, (minn N (j + nlo).+1, minn N (j + nhi).+1))).
Proof.
  move=> Hj I; have [I1 I2 I3 I4 [I5 I6]] := I.
  set ec := minn N (j + nlo).+1; set er := minn N (j + nhi).+1.
  have Hec : (j < ec)%N by rewrite /ec; lia.
  have Ho1 : colok N nlo nhi j j ec by rewrite /colok /inb /ec; lia.
  rewrite /bstep Ho1 /=.
  have [h1 h2] := @amaxP _ (fun i => A i j) j (ec - j) ltac:(lia).
  move: h1 h2; set ip0 := amax _ _ _ => h1 h2.
  pose zero := `|A ip0 j| == 0.
  pose ip := if zero then j else ip0.
  have Hz : zero -> forall i, (j <= i < ec)%N -> A i j = 0.
    move=> /eqP E i Hi; apply/eqP; rewrite -normr_le0; apply: le_trans (h2 i _) _; first by lia.
    by rewrite E.
  have Hip : (j <= ip < ec)%N by rewrite /ip; case: ifP; lia.
  (** The rows of the pivoting and the columns of the elimination stay in the band. *)
  have HB i c : (j <= i < ec)%N -> (j <= c < er)%N -> bandm nlo nhi A i c = A i c.
    by move=> Hi Hc; rewrite /bandm ifT //; rewrite /ec /er in Hi Hc; lia.
  have HB0 i c : (j <= i < ec)%N -> (er <= c < N)%N -> bandm nlo nhi A i c = 0.
    by move=> Hi Hc; apply: I3; rewrite /ec /er in Hi Hc; lia.
  pose A' := if zero then zerocol j j ec A else A.
  have EA' i c : A' i c = A i c.
    by rewrite /A'; case: ifP => // hz; rewrite /zerocol; case: ifP => // /andP [/eqP -> h]; rewrite Hz.
  pose A1 := if ip != j then swapseg j er ip j A' else A'.
  have EA1 i c : A1 i c = if (j <= c < er)%N then A (tsw j ip i) c else A i c.
    rewrite /A1 /swapseg; case: eqP => [->|_]; first by rewrite /= tsw_same if_same EA'.
    rewrite /= !EA'; have -> : tsw ip j i = tsw j ip i; last by [].
    by rewrite /tsw; case: (i =P ip) => [->|_] //; case: eqP.
  pose l i := if A1 j j != 0 then A1 i j / A1 j j else A1 i j.
  pose A2 := if A1 j j != 0 then divcol j j.+1 ec (A1 j j) A1 else A1.
  set V' := rank1sub j ec er A2.
  have Her : (j < er)%N by rewrite /er; lia.
  have E1j c : (j <= c < er)%N -> A1 j c = A ip c by move=> h; rewrite EA1 h /tsw eqxx.
  have Ht i : (j < i < ec)%N -> (j <= tsw j ip i < ec)%N.
    by move=> h; rewrite tsw_ge ?tsw_lt //; lia.
  have Ht2 i : (ec <= i)%N -> tsw j ip i = i by move=> h; rewrite tsw_out //; lia.
  have Ht3 i : (i < j)%N -> tsw j ip i = i by move=> h; rewrite tsw_out //; lia.
  have EV i c : V' i c = if (j < i < ec)%N && (j < c < er)%N then A1 i c - l i * A1 j c
                         else if (c == j) && (j < i < ec)%N then l i else A1 i c.
    have ED i' c' : A2 i' c' = if (c' == j) && (j < i' < ec)%N then l i' else A1 i' c'.
      rewrite /A2 /l; case: (A1 j j != 0); last by case: ifP => // /andP [/eqP ->].
      by rewrite /divcol; case: ifP => // /andP [/eqP ->].
    rewrite /V' /rank1sub !ED eqxx ltnn andbF /=; case: ifP => // /andP [h h'].
    rewrite h; have -> : (c == j) = false by lia. by [].
  have El i : (j < i < ec)%N -> l i * A1 j j = A1 i j.
    move=> Hi; rewrite /l; case: eqP => [E|/eqP NE] /=; last by rewrite divfK.
    have hz : zero.
      case hz: zero => //; move: E; rewrite E1j ?leqnn // /ip hz => E.
      by move: hz; rewrite /zero E normr0 eqxx.
    by rewrite E mulr0 EA1 leqnn Her /= Hz //; exact: Ht.
  have El1 i : (j < i < ec)%N -> `|l i| <= 1.
    move=> Hi; rewrite /l; case: eqP => [E|/eqP NE] /=; first by rewrite -(El i Hi) E mulr0 normr0 ler01.
    rewrite normf_div ler_pdivr_mulr ?normr_gt0 // mul1r E1j ?leqnn // EA1 leqnn Her /=.
    move: NE; rewrite E1j ?leqnn // /ip; case: ifP => hz NE; first by rewrite Hz ?eqxx ?leqnn // in NE.
    by have := Ht i Hi; rewrite /ip hz => h; apply: h2; lia.
  have Hmain : binv j.+1 V' (updv P j ip).
    apply: (binv_elim (l := l) Hj I) => //; rewrite -/ec -/er.
    - by move=> i c; rewrite EV !EA1.
    - by move=> i Hi; rewrite -!EA1; exact: El.
  have Ho2 : rowok N nlo nhi ip j er && rowok N nlo nhi j j er.
    by rewrite /rowok /inb; rewrite /ec /er in Hip *; lia.
  have Ho3 : [&& colok N nlo nhi j j.+1 ec, rowok N nlo nhi j j.+1 er & subok N nlo nhi j.+1 ec j.+1 er].
    by rewrite /colok /rowok /subok /inb /ec /er; lia.
  have -> : (if `|A ip0 j| == 0 then (zerocol j j ec A, j) else (A, ip0)) = (A', ip).
    by rewrite /A' /ip /zero; case: ifP.
  rewrite Ho2 andbF -/A1 -/A2 Ho3 /= -/V'; split=> //.
  by congr (_, _); rewrite /ec /er; case: ifP; lia.
Qed.

Lemma NonLapBandLUP : (forall i c, (i < N)%N -> (c < N)%N -> (i + hi0 < c <= i + nhi)%N -> A0 i c = 0) ->
  post (fun S => bspec S.1 S.2) (fun _ => False) (NonLapBandLU N nlo nhi A0 P0).
Proof.
  move=> H; rewrite /NonLapBandLU; apply: post_bind.
  apply: (@post_imp _ (fun S : fm F * (nat -> nat) * (nat * nat) => binv N.-1 S.1.1 S.1.2 /\
     S.2 = (minn N (N.-1 + nlo).+1, minn N (N.-1 + nhi).+1)) _ (fun _ => False)) => //.
    by move=> [[V P] e] /= [/binv_last I _]; exact: binv_end.
  apply: (@loop_up_inv _ (fun j (S : fm F * (nat -> nat) * (nat * nat)) => binv j S.1.1 S.1.2 /\
     S.2 = (minn N (j + nlo).+1, minn N (j + nhi).+1))).
  - by split; [exact: binv_start | rewrite /=; congr (_, _); lia].
  - by move=> j [[V P] e] Hj [/= I ->]; exact: bstepP.
Qed.
End Dec.

(** The tridiagonal algorithm. *)
Lemma tstepP N nhi A0 P0 j A P : (1 < N)%N -> nhi = minn (1 + 1) N.-1 -> (j < N.-1)%N ->
  binv N 1 1 nhi A0 P0 j A P ->
  post (fun S => binv N 1 1 nhi A0 P0 j.+1 S.1 S.2) (fun _ => False) (tstep N 1 nhi j (A, P)).
Proof.
  move=> HN Hnhi Hj I; rewrite /tstep.
  have -> : [&& inb N 1 nhi j j, inb N 1 nhi j.+1 j, inb N 1 nhi j j.+1 & inb N 1 nhi j.+1 j.+1] by rewrite /inb; lia.
  set pivot := `|A j j| < `|A j.+1 j|.
  have -> : (pivot && (j.+2 < N)%N) && ~~ (inb N 1 nhi j j.+2 && inb N 1 nhi j.+1 j.+2) = false.
    by case: (pivot) => //=; case: ltnP => //= h; rewrite /inb; lia.
  rewrite /=.
  have HI := I; have [I1 I2 I3 I4 [I5 I6]] := HI.
  pose ip := if pivot then j.+1 else j.
  set ec := minn N (j + 1).+1; set er := minn N (j + nhi).+1.
  have Eec : ec = j.+2 by rewrite /ec; lia.
  have Eer : er = if (j.+2 < N)%N then j.+3 else j.+2 by rewrite /er; case: ifP; lia.
  pose A1 : fm F := fun i c => if (j <= c < er)%N then A (tsw j ip i) c else A i c.
  pose l (i : nat) : F := if A1 j j == 0 then 0 else A1 j.+1 j / A1 j j.
  pose A1' : fm F := if pivot then
      (let A := swapseg j j.+1 j.+1 j A in
      let A := if (j.+1 < N)%N then swapseg j.+1 j.+2 j.+1 j A else A in
      if (j.+2 < N)%N then swapseg j.+2 j.+3 j.+1 j A else A) else A.
  have Esw i : tsw j.+1 j i = tsw j j.+1 i.
    by rewrite /tsw; case: (i =P j.+1) => [->|_] //; rewrite ifN //; lia.
  have EA1 i c : A1' i c = A1 i c.
    rewrite /A1' /A1 /ip; case: (pivot); last by rewrite tsw_same if_same.
    have -> : (j.+1 < N)%N by lia.
    rewrite Eer; case: (j.+2 < N)%N; rewrite /swapseg /= !Esw !tswK.
    - by case E1: (j.+1 < c < j.+3)%N; case E2: (j < c < j.+2)%N; case E3: (j <= c < j.+1)%N;
         case E4: (j <= c < j.+3)%N => //; lia.
    - by case E2: (j < c < j.+2)%N; case E3: (j <= c < j.+1)%N; case E4: (j <= c < j.+2)%N => //; lia.
  have -> : (if pivot then
      (if (j.+2 < N)%N then swapseg j.+2 j.+3 j.+1 j (if (j.+1 < N)%N then swapseg j.+1 j.+2 j.+1 j (swapseg j j.+1 j.+1 j A) else swapseg j j.+1 j.+1 j A)
       else (if (j.+1 < N)%N then swapseg j.+1 j.+2 j.+1 j (swapseg j j.+1 j.+1 j A) else swapseg j j.+1 j.+1 j A), updv P j j.+1)
    else (A, updv P j j)) = (A1', updv P j ip) by rewrite /A1' /ip; case: (pivot).
  have Her2 : (j.+1 < er)%N by rewrite Eer; case: ifP; lia.
  have Ejj : A1 j j = A ip j by rewrite /A1 leqnn ltnW //= /tsw eqxx.
  have Ej1 : A1 j.+1 j = A (tsw j ip j.+1) j by rewrite /A1 leqnn ltnW.
  have Hmax : `|A1 j.+1 j| <= `|A1 j j|.
    rewrite Ejj Ej1 /ip; case: ifP => h; last by rewrite tsw_same real_leNgt ?normr_real // -/pivot h.
    have -> : tsw j j.+1 j.+1 = j by rewrite /tsw ifN ?eqxx //; lia.
    exact: ltW.
  rewrite !EA1 /=.
  set A2 := if A1 j j == 0 then _ else _.
  have EA2 i c : A2 i c = if (i == j.+1) && (c == j) then l j.+1 else A1 i c.
    rewrite /A2 /l; case: eqP => [E|_]; rewrite /updm EA1 //.
    case: ifP => [/andP [/eqP -> /eqP ->]|h //].
    by rewrite ifN ?E //; lia.
  set V' := if _ then _ else _.
  have Hnp : ~~ pivot -> (j.+2 < N)%N -> A1 j j.+2 = 0.
    move=> np h; rewrite /A1 /ip (negPf np) tsw_same if_same.
    have := I3 j j.+2; rewrite /bandm ifT; last by lia.
    by apply; lia.
  set A3 := updm A2 j.+1 j.+1 _ in V' *.
  have EA3 i c : A3 i c = if (i == j.+1) && (c == j.+1) then A1 j.+1 j.+1 - l j.+1 * A1 j j.+1 else A2 i c.
    rewrite /A3 /updm; case: ifP => // _; rewrite !EA2 !eqxx /=.
    have -> : (j.+1 == j) = false by lia. by have -> : (j == j.+1) = false by lia.
  have EV i c : V' i c = if [&& i == j.+1, c == j.+2 & (j.+2 < N)%N] then A1 j.+1 j.+2 - l j.+1 * A1 j j.+2 else A3 i c.
    have X1 : A3 j.+1 j.+2 = A1 j.+1 j.+2.
      rewrite EA3 EA2; have -> : (j.+2 == j.+1) = false by lia. have -> : (j.+2 == j) = false by lia. by rewrite !andbF.
    have X2 : A3 j.+1 j = l j.+1.
      rewrite EA3 EA2 !eqxx; by have -> : (j == j.+1) = false by lia.
    have X3 : A3 j j.+2 = A1 j j.+2.
      rewrite EA3 EA2; by have -> : (j == j.+1) = false by lia.
    rewrite /V'; case: (ltnP j.+2 N) => h; last by rewrite !andbF.
    case hp: pivot; rewrite /= ?andbT; first by rewrite /updm X1 X2 X3.
    case: ifP => // /andP [/eqP -> /eqP ->]; rewrite Hnp ?hp // mulr0 subr0 //.
  apply: (binv_elim HN HN Hnhi (l := l) Hj HI); rewrite -/ec -/er.
  - by rewrite /ip Eec; case: (pivot); lia.
  - move=> i c; rewrite -/(A1 i c) -/(A1 j c) EV EA3 EA2 Eec.
    have -> : (j < i < j.+2)%N = (i == j.+1) by lia.
    case: (i =P j.+1) => [->|_] /=; last by rewrite andbF.
    rewrite andbT -/(l j.+1).
    have -> : (j < c < er)%N = (c == j.+1) || (c == j.+2) && (j.+2 < N)%N by rewrite Eer; case: ifP; lia.
    case: (c =P j.+1) => [->|_] /=.
      by have -> : (j.+1 == j.+2) = false by lia.
    by case: (c =P j.+2) => [->|_] //=; case: ltnP.
  - move=> i Hi; have -> : i = j.+1 by lia.
    rewrite -/(A1 j j) -/(A1 j.+1 j) /l; case: eqP => [E|/eqP NE]; last by rewrite divfK.
    by apply/eqP; rewrite mul0r eq_sym -normr_le0; apply: le_trans Hmax _; rewrite E normr0.
  - move=> i _; rewrite /l; case: eqP => [E|/eqP NE]; first by rewrite normr0 ler01.
    by rewrite normf_div ler_pdivr_mulr ?normr_gt0 // mul1r.
Qed.

Lemma NonLapTriDiagLUP N nhi A0 P0 : (1 < N)%N -> nhi = minn (1 + 1) N.-1 ->
  (forall i c, (i < N)%N -> (c < N)%N -> (i + 1 < c <= i + nhi)%N -> A0 i c = 0) ->
  post (fun S => bspec N 1 1 nhi A0 P0 S.1 S.2) (fun _ => False) (NonLapTriDiagLU N 1 nhi A0 P0).
Proof.
  move=> HN Hnhi H; rewrite /NonLapTriDiagLU; apply: post_bind.
  apply: (@post_imp _ (fun S : fm F * (nat -> nat) => binv N 1 1 nhi A0 P0 N.-1 S.1 S.2) _ (fun _ => False)) => //.
    by move=> [V P] /= I; apply: binv_end; apply: (binv_last HN HN Hnhi).
  apply: (@loop_up_inv _ (fun j (S : fm F * (nat -> nat)) => binv N 1 1 nhi A0 P0 j S.1 S.2)).
  - exact: binv_start.
  - by move=> j [V P] Hj /= I; exact: tstepP.
Qed.

Lemma unpk0 N V P n r c : unpk N 0 V P n r c = 0.
Proof.
  elim: n r c => [//|n IH] r c; rewrite unpkS ifN; last by lia.
  by case: ifP => _; apply: IH.
Qed.

Lemma psig_id P n i : (forall k, (k < n)%N -> P k = k) -> psig P 0 n i = i.
Proof.
  elim: n i => [//|n IH] i H; rewrite psigS add0n H // tsw_same; apply: IH => k Hk; apply: H; lia.
Qed.

Lemma diagL N V P (U : fm F) i c : (i < N)%N -> (forall r k, (k < N)%N -> unpk N 0 V P N r k = 0) ->
  \sum_(0 <= k < N) lower true (unpk N 0 V P N) i k * U k c = U i c.
Proof.
  move=> Hi H; rewrite big_mkord (bigD1 (Ordinal Hi)) //= lower_diag mul1r big1 ?addr0 // => k /eqP Nk.
  rewrite /lower H // ifN ?if_same ?mul0r //.
  by apply/eqP => E; apply: Nk; apply: val_inj.
Qed.

Lemma BandLU_DecomposeP (iscm : bool) N nlo hi0 nhi A0 P0 : (nlo < N)%N -> (hi0 < N)%N -> nhi = minn (nlo + hi0) N.-1 ->
  iscm || (nlo == 1%N) && (hi0 == 1%N) ->
  (forall i c, (i < N)%N -> (c < N)%N -> (i + hi0 < c <= i + nhi)%N -> A0 i c = 0) ->
  post (fun S => bspec N nlo hi0 nhi A0 P0 S.1 S.2) (fun _ => False) (BandLU_Decompose iscm N nlo nhi A0 P0).
Proof.
  move=> Hlo Hhi Hnhi Hst H; rewrite /BandLU_Decompose.
  have -> : (0 < N)%N by lia.
  case: (posnP nlo) => [E0|Hpos]; last first.
    case: iscm Hst => [_|/= /andP [/eqP E1 /eqP E2]]; first exact: NonLapBandLUP.
    by subst nlo hi0; apply: NonLapTriDiagLUP.
  subst nlo; split=> /=.
  - by move=> k Hk; rewrite Hk; lia.
  - move=> i c Hi Hc; rewrite diagL //; last by move=> *; rewrite unpk0.
    rewrite psig_id; last by move=> k ->.
    have -> : nhi = hi0 by lia.
    rewrite /upper /bandm; case: (i =P c) => [->|Ne]; first by rewrite !leq_addr.
    case: ltnP => // h; first by rewrite ifN //; lia.
  - by move=> k i Hk; lia.
  - by split=> // k Hk; rewrite ifN //; lia.
Qed.

(** ** Division by the packed P*L *)

(** The forward elimination of one column. *)
Definition fstep N nlo V P (j : nat) (y : fv F) : fv F :=
  fun r => let y' := fun r => y (tsw j (P j) r) in
    if (j < r < minn (j + nlo).+1 N)%N then y' r - V r j * y' j else y' r.
Definition fwdv N nlo V P n (y : fv F) : fv F := foldl (fun y j => fstep N nlo V P j y) y (iota 0 n).

Lemma fwdvS N nlo V P n y : fwdv N nlo V P n.+1 y = fstep N nlo V P n (fwdv N nlo V P n y).
Proof. by rewrite /fwdv -addn1 iotaD foldl_cat. Qed.

Lemma fwdvP N nlo V P y : (0 < N)%N -> (forall k, (k < N)%N -> (k <= P k < N)%N) ->
  colinv N nlo V P N (fwdv N nlo V P N.-1 y) y /\ forall k, (N <= k)%N -> fwdv N nlo V P N.-1 y k = y k.
Proof.
  move=> HN HP.
  have H n : (n <= N.-1)%N -> colinv N nlo V P n (fwdv N nlo V P n y) y /\
                             forall k, (N <= k)%N -> fwdv N nlo V P n y k = y k.
    elim: n => [|n IH] Hn; first by split=> // i Hi; rewrite big_geq // add0r.
    have {IH} [IH1 IH2] := IH ltac:(lia); rewrite fwdvS; split.
    - apply: (colstep _ _ IH1) => //; try (by apply: HP; lia); try lia.
      + move=> k Hk; rewrite /fstep ifN; last by lia. by rewrite tsw_out //; have := HP n; lia.
      + by rewrite /fstep ltnn /= /tsw eqxx.
      + move=> i Hi; rewrite /mult /fstep ltnn /= {2}/tsw eqxx.
        case: ifP => h; last by rewrite mul0r add0r.
        by rewrite /tsw eqxx addrC subrK.
    - move=> k Hk; rewrite /fstep ifN; last by lia.
      by rewrite tsw_out ?IH2 //; have := HP n; lia.
  have [h1 h2] := H N.-1 (leqnn _); split=> //.
  have E : N.-1.+1 = N by lia.
  have EP : P N.-1 = N.-1 by have := HP N.-1; lia.
  have K : colinv N nlo V P N.-1.+1 (fwdv N nlo V P N.-1 y) y.
    by apply: (colstep _ _ h1) => //; rewrite ?EP //; try (by move=> *; lia); lia.
  by rewrite E in K.
Qed.

Lemma PackedPL_LDivEqE N nlo K V P m r c : (0 < nlo < N)%N -> (forall k, (k < N)%N -> (k <= P k < N)%N) ->
  PackedPL_LDivEq N nlo K V P m r c = if (c < K)%N then fwdv N nlo V P N.-1 (colof m c) r else m r c.
Proof.
  move=> Hlo HP; rewrite /PackedPL_LDivEq ifT; last by lia.
  set f := fun S j => _.
  have H n : (n <= N.-1)%N ->
    (forall r c, (foldl f (m, nlo.+1) (iota 0 n)).1 r c = if (c < K)%N then fwdv N nlo V P n (colof m c) r else m r c) /\
    (foldl f (m, nlo.+1) (iota 0 n)).2 = minn N (n + nlo).+1.
    elim: n => [|n IH] Hn; first by split=> [r' c'|] /=; [rewrite if_same | lia].
    have {IH} [IH1 IH2] := IH ltac:(lia).
    have Ei : iota 0 n.+1 = iota 0 n ++ [:: n] by rewrite -addn1 iotaD.
    rewrite Ei foldl_cat /=; case: (foldl f _ _) IH1 IH2 => Y jn /= IH1 ->; split; last by case: ifP; lia.
    move=> r' c'; rewrite fwdvS /outersub /swaprows.
    case: (ltnP c' K) => Hc; last by rewrite andbF IH1 ltnNge Hc.
    by rewrite andbT minnC !IH1 Hc /fstep.
  by have [-> _] := H N.-1 (leqnn _).
Qed.

(** Division from the right is the adjoint. *)
Lemma fstep_adj N nlo V P j (x y : fv F) : (j < N)%N -> (j <= P j < N)%N ->
  \sum_(0 <= k < N) x k * fstep N nlo V P j y k =
  \sum_(0 <= k < N) (let x1 := updv x j (x j - \sum_(j.+1 <= i < minn N (j + nlo).+1) x i * V i j) in
                     x1 (tsw j (P j) k)) * y k.
Proof.
  move=> Hj HP; set jn := minn N (j + nlo).+1; set x1 := updv _ _ _; rewrite /=.
  set y' := fun r => y (tsw j (P j) r).
  have Hjn : (j < jn <= N)%N by rewrite /jn; lia.
  have E2 : \sum_(0 <= k < N) x1 (tsw j (P j) k) * y k = \sum_(0 <= k < N) x1 k * y' k.
    rewrite !big_mkord.
    have Ht (k : 'I_N) : (tsw j (P j) k < N)%N by apply: tsw_lt => //; lia.
    pose h (k : 'I_N) : 'I_N := Ordinal (Ht k).
    have hK : involutive h by move=> k; apply: val_inj; rewrite /= tswK.
    rewrite [RHS](reindex_inj (can_inj hK)); apply: eq_bigr => k _ /=.
    by rewrite /y' tswK.
  rewrite E2 {E2}.
  transitivity (\sum_(0 <= k < N) x k * y' k - (\sum_(j.+1 <= i < jn) x i * V i j) * y' j).
  - rewrite (@big_cat_nat _ _ _ j.+1 0 N) //= [in RHS](@big_cat_nat _ _ _ j.+1 0 N) //=.
    rewrite -[RHS]addrA; congr (_ + _).
      apply: eq_big_nat => k Hk; rewrite /fstep ifN //; lia.
    rewrite (@big_cat_nat _ _ _ jn j.+1 N) /=; [|lia..].
    rewrite [in RHS](@big_cat_nat _ _ _ jn j.+1 N) /=; [|lia..].
    rewrite addrAC; congr (_ + _); last first.
      apply: eq_big_nat => k Hk; rewrite /fstep ifN //; rewrite /jn in Hk; lia.
    rewrite mulr_suml -sumrB; apply: eq_big_nat => k Hk.
    rewrite /fstep ifT; last by rewrite /jn in Hk; lia.
    by rewrite mulrBr mulrA.
  - rewrite big_mkord [RHS]big_mkord !(bigD1 (Ordinal Hj) (P := xpredT)) //=.
    rewrite /x1 /updv eqxx mulrBl addrAC; congr (_ + _).
    by apply: eq_bigr => k /eqP Nk; rewrite ifN //; apply/eqP => E; apply: Nk; apply: val_inj.
Qed.

Lemma PackedPL_RDivEqP N nlo K V P m : (0 < nlo < N)%N -> (forall k, (k < N)%N -> (k <= P k < N)%N) ->
  let X := PackedPL_RDivEq N nlo K V P m in
  (forall r (y : fv F), (r < K)%N ->
     \sum_(0 <= k < N) X r k * y k = \sum_(0 <= k < N) m r k * fwdv N nlo V P N.-1 y k) /\
  (forall r c, ~~ ((r < K)%N && (c < N)%N) -> X r c = m r c).
Proof.
  move=> Hlo HP; rewrite /PackedPL_RDivEq ifT; last by lia.
  set f := fun S j => _; rewrite /=.
  have H n : forall m' jn k, (n <= N.-1)%N -> ((n <= N)%N -> jn = minn N (n + nlo)) -> k = ((n + nlo) - N)%N ->
    let X := (foldl f (m', (jn, k)) (rev (iota 0 n))).1 in
    (forall r (y : fv F), (r < K)%N ->
     \sum_(0 <= k < N) X r k * y k = \sum_(0 <= k < N) m' r k * fwdv N nlo V P n y k) /\
    (forall r c, ~~ ((r < K)%N && (c < N)%N) -> X r c = m' r c).
    elim: n => [|n IH] m' jn k Hn Hjn Hk //.
    have Ei : rev (iota 0 n.+1) = n :: rev (iota 0 n) by rewrite -addn1 iotaD rev_cat.
    rewrite Ei /=; have Ejn := Hjn ltac:(lia).
    set m1 := swapcols _ _ _ _.
    have [h1 h2] : let X := (foldl f (m1, if (0 < k)%N then (jn, k.-1) else (jn.-1, k)) (rev (iota 0 n))).1 in
      (forall r (y : fv F), (r < K)%N ->
       \sum_(0 <= k < N) X r k * y k = \sum_(0 <= k < N) m1 r k * fwdv N nlo V P n y k) /\
      (forall r c, ~~ ((r < K)%N && (c < N)%N) -> X r c = m1 r c).
      by case: ifP => h; apply: IH; lia.
    have Hn' : (n < N)%N by lia.
    split=> [r y Hr|r c Hrc].
    - rewrite h1 // fwdvS (fstep_adj _ _ _ _ Hn' (HP n Hn')); apply: eq_big_nat => q Hq; congr (_ * _).
      rewrite /m1 /swapcols Hr /colsub Hr andbT /updv /=.
      have -> : minn N (n + nlo).+1 = jn by rewrite Ejn addSn.
      by [].
    - rewrite h2 // /m1 /swapcols; case: ifP => Hr; last by rewrite /colsub Hr andbF.
      have HPn := HP n Hn'.
      rewrite tsw_out; [|lia..]. rewrite /colsub ifN //; lia.
  by apply: H; lia.
Qed.
End Proofs.
