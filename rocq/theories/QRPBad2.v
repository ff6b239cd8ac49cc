(** Rank deficient matrices in the loose block version: a column whose norm is low is
    exchanged with the last one of the block, which is not examined; with the columns
    e0, ..., e0, e1 the column e1 is lost. *)
From Coq Require Import Ring Field.
From Verif Require Import Base FMat TriSolve RowPerm RingTac Cplx Chol QR QRProofs QRP QRPProofs QRPLoop QRPStrict QRPPerm QRPLoose QRPBad.
From mathcomp Require Import all_ssreflect all_fingroup all_algebra zify.
Set Implicit Arguments. Unset Strict Implicit. Unset Printing Implicit Defensive.
Import GRing.Theory Num.Theory Order.Theory.
Local Open Scope ring_scope.

Section Bad.
Variable C : numClosedFieldType.
Variables (nb : nat) (under : C -> bool) (eps : C).
Notation N := nb.+1.
Hypotheses (nb3 : (3 <= nb)%N) (eps0 : 0 < eps) (epsN : N%:R * sqrteps eps <= 1).
(** nb columns e0 and a column e1. *)
Definition W : fm C := fun i c => if c == nb then (i == 1%N)%:R else (i == 0%N)%:R.

Lemma W0 i c : (c < nb)%N -> W i c = (i == 0%N)%:R.
Proof using All. by move=> h; rewrite /W; have -> : (c == nb) = false by lia. Qed.
Lemma Wn i : W i nb = (i == 1%N)%:R.
Proof using All. by rewrite /W eqxx. Qed.
Lemma W2 i c : (2 <= i)%N -> W i c = 0.
Proof using All. by rewrite /W; case: (c == nb); case: i => [|[|i]]. Qed.
Lemma W1 i c : (1 <= i)%N -> (c < nb)%N -> W i c = 0.
Proof using All. by move=> hi hc; rewrite W0 //; case: i hi. Qed.

Lemma tABS20 : tABS2 (0 : C) = 0.
Proof using All. by apply/eqP; rewrite tABS2_eq0. Qed.
(** A reflection of a column that is zero below its first element does nothing. *)
Lemma refl0 M k c1 (A : fm C) d : (k < M)%N -> (forall i, (k < i < M)%N -> A i k = 0) -> 'Im (A k k) = 0 ->
  exists A2, hreflectM under M k c1 A d = (A2, 0, d) /\ forall i c, A2 i c = A i c.
Proof using All.
  move=> hk hz hi; rewrite /hreflectM /hreflect.
  have f0 n l : (l.+1 + n <= M)%N -> (k <= l)%N -> foldl (fun s i => if s < tABS2 (A i k) then tABS2 (A i k) else s) 0 (iota l.+1 n) = 0.
    elim: n l => //= n IH l h1 h2; rewrite (hz l.+1) ?tABS20 ?ltxx ?IH //; lia.
  have sb x0 : A k k = x0 -> forall i c, setbelow M k x0 (fun _ => 0) A i c = A i c.
    move=> e i c; rewrite /setbelow; case: ifP => // /andP [/eqP -> h].
    by case: eqP => [->|ne]; [rewrite e | rewrite hz //; lia].
  case: eqP => [e|_].
    have ek : A k k = 0; last by eexists; split; [rewrite /hlmult eqxx /=; reflexivity | exact: sb].
    move: e; rewrite /hscale f0; [|lia|lia]; case: ifP => [_ /eqP|h _]; first by rewrite tABSE normr_eq0 => /eqP.
    by move: h; rewrite tABSE normr_gt0 => /negbFE/eqP.
  have -> : \sum_(k.+1 <= i < M) tNORM (A i k * tINV (hscale M k A)) = 0.
    by rewrite big_nat; apply: big1 => i hi'; rewrite hz ?mul0r ?tN00 //; lia.
  rewrite eqxx hi eqxx; eexists; split; [rewrite /= /hlmult eqxx /=; reflexivity | exact: sb].
Qed.
Lemma reflW k c1 (A : fm C) d : (k < nb)%N -> (forall i c, A i c = W i c) ->
  exists A2, hreflectM under N k c1 A d = (A2, 0, d) /\ forall i c, A2 i c = W i c.
Proof using All.
  move=> hk hA; have [||A2 [-> h]] := @refl0 N k c1 A d ltac:(lia).
  - by move=> i hi; rewrite hA W1 //; lia.
  - by rewrite hA W0 //; apply/Creal_ImP; rewrite realn.
  by exists A2; split=> // i c; rewrite h hA.
Qed.

Variable t : C.
Notation tau := (tNORM t).
Notation sc := (Some t).
Hypothesis tau0 : 0 < tau.

Record inv j (s : pst C) (Z : fm C) : Prop := Inv {
  iA : forall i c, qA s i c = W i c;
  iP : forall k, (k < nb)%N -> (qP s k < nb)%N;
  ic : forall k, (1 <= k < nb)%N -> qc s k = Some 0;
  iN : qc s nb = Some tau;
  ib : forall k, (k < j)%N -> qb s k = 0;
  iZ : forall k l, (k <= l < j)%N -> Z k l = 0 }.

Lemma swapW A a b : (forall i c, A i c = W i c) -> (a < nb)%N -> (b < nb)%N -> forall i c, swapAc N a b A i c = W i c.
Proof using All.
  move=> h ha hb i c; rewrite /swapAc; case: ifP => _; rewrite h // /W.
  suff -> : (tsw a b c == nb) = (c == nb) by [].
  by rewrite /tsw; do 2 (case: ifP => [/eqP ?|_]; first (apply/idP/idP; lia)).
Qed.
Lemma swapc cn a b : (forall k, (1 <= k < nb)%N -> cn k = Some (0 : C)) -> (1 <= a < nb)%N -> (1 <= b < nb)%N ->
  (forall k, (1 <= k < nb)%N -> swapcn a b cn k = Some 0) /\ swapcn a b cn nb = cn nb.
Proof using All.
  move=> h ha hb; rewrite /swapcn; split.
    move=> k hk; apply: h; rewrite /tsw; by case: eqP => // _; case: eqP.
  by rewrite /tsw; have -> : (nb == a) = false by [lia]; have -> : (nb == b) = false by [lia].
Qed.

Lemma badcol_inv j j2 s Z : (1 <= j)%N -> (j < j2 < nb)%N -> inv j s Z -> inv j (badcol N j j2 s) Z.
Proof using All.
  move=> h1 h2 [A P c n b z].
  have A1 : forall i c, swapAc N j j2 (qA s) i c = W i c by apply: swapW => //; lia.

  have [c1 n1] := @swapc (qc s) j j2 c ltac:(lia) ltac:(lia).
  have Pj := P j ltac:(lia); have Pj2 := P j2 ltac:(lia).
  have Pu P' k v : (forall k, (k < nb)%N -> (P' k < nb)%N) -> (v < nb)%N -> forall l, (l < nb)%N -> (updP P' k v l < nb)%N.
    by move=> h hv l hl; rewrite /updP; case: ifP => // _; apply: h.
  rewrite /badcol /=; case: (ltnP j2 (qP s j2)) => a1; case: (ltnP j2 (qP s j)) => a2; split=> //=; rewrite ?n1 //.
  - by apply: swapW.
  - by apply: (Pu) => //; apply: (Pu).
  - have [c2 n2] := @swapc _ (qP s j2) (qP s j) c1 ltac:(lia) ltac:(lia); exact: c2.
  - have [c2 n2] := @swapc _ (qP s j2) (qP s j) c1 ltac:(lia) ltac:(lia); by rewrite n2 n1.
  - by apply: (Pu).
  - by apply: (Pu) => //; [apply: (Pu) | lia].
  - by apply: (Pu) => //; lia.
Qed.

(** A step past the first. *)
Lemma step_inv j j2 s Z : (1 <= j < nb)%N -> (j2 <= nb)%N -> inv j s Z ->
  exists s' Z', lbstep under sc N 0 j j2 nb s Z = (s', Z') /\ inv j.+1 s' Z'.
Proof using All.
  move=> h1 h2 [A P c n b z]; rewrite /lbstep.
  have [A2 [-> hA2]] := @reflW j nb (qA s) (qd s) ltac:(lia) A.
  eexists; eexists; split; first reflexivity.
  split=> //=.
  - move=> k hk; rewrite /downnorm; case: ifP => h; last exact: c.
    by rewrite c // hA2 W1 /= ?mul0r ?tN00 ?subr0 //; lia.
  - by rewrite /downnorm; have -> : (j < nb < j2)%N = false by lia.
  - move=> k hk; rewrite /updv; case: eqP => // ne; apply: b; lia.
  - move=> k l hkl; rewrite /augment conjC0 eqxx; case: ifP => // h; apply: z; lia.
Qed.

Variable rho : C.
Hypotheses (rho0 : 0 < rho) (rho1 : rho <= tau).

Lemma LBinS f r j j2 oj2 s Z s1 Z1 : (j < j2)%N -> nlt (qc s j) r = false -> lbstep under sc N 0 j j2 oj2 s Z = (s1, Z1) ->
  LBin under f.+1 sc r N 0 j j2 oj2 s Z = LBin under f sc r N 0 j.+1 j2 oj2 s1 Z1.
Proof using All. by move=> /= -> -> ->. Qed.
Lemma LBin_bad fuel j j2 s Z : (1 <= j)%N -> (j <= j2 <= nb)%N -> (j2 - j <= fuel)%N -> inv j s Z ->
  exists s' Z' J, [/\ LBin under fuel sc (Some rho) N 0 j j2 nb s Z = Ok (s', Z', J), (j <= J <= j2)%N, inv J s' Z' & (j.+1 < j2)%N -> (j < J)%N].
Proof using All.
  elim: fuel j j2 s Z => [|f IH] j j2 s Z h1 h2 h3 v.
    have e : j2 = j by lia.
    by exists s, Z, j2; rewrite /= e ltnn; split=> //; lia.
  case: (ltnP j j2) => hj; last first.
    by exists s, Z, j2; rewrite /= ltnNge hj /=; split=> //; [lia|have -> : j2 = j by lia|lia].
  rewrite /= hj (ic v) /= ?rho0; last lia.
  case: eqP => [e|ne].
    by exists s, Z, j2.-1; split=> //; [lia|rewrite -e|lia].
  have v1 := @badcol_inv j j2.-1 s Z h1 ltac:(lia) v.
  have [s' [Z' [-> v2]]] := @step_inv j j2.-1 _ Z ltac:(lia) ltac:(lia) v1.
  have [s2 [Z2 [J [E hJ v3 _]]]] := IH j.+1 j2.-1 s' Z' ltac:(lia) ltac:(lia) ltac:(lia) v2.
  by exists s2, Z2, J; split=> //; lia.
Qed.

Lemma MLnone f M i j2 j3 (s : pst C) : (j2 - i <= f)%N -> (forall k, (i <= k < j2)%N -> nlt (qc s k) (Some rho) = false) ->
  exists P', MoveLowLoop f (Some rho) M i j2 j3 s = (PS (qA s) (qb s) P' (qd s) (qc s) (qr s), j2, j3) /\
    forall k, P' k = if (i <= k < j2)%N then k else qP s k.
Proof using All.
  elim: f i s => [|f IH] i s hf hk /=.
    exists (qP s); split; first by case: s hk.
    by move=> k; case: ifP => // h; lia.
  case: ltnP => h; last by exists (qP s); split; [case: s hk | move=> k; case: ifP => // ?; lia].
  rewrite hk; last lia.
  have [P' [-> hP]] := IH i.+1 (PS (qA s) (qb s) (updP (qP s) i i) (qd s) (qc s) (qr s)) ltac:(lia) (fun k h' => hk k ltac:(lia)).
  exists P'; split=> // k; rewrite hP /= /updP; case: eqP => [->|ne].
    by rewrite ltnn /= leqnn h.
  by have -> : (i < k < j2)%N = (i <= k < j2)%N by lia.
Qed.

Definition low (s : pst C) : Prop := (forall i c, qA s i c = W i c) /\ (forall k, (1 <= k < N)%N -> qc s k = Some 0).

Lemma putback_low j2 s : (1 <= j2 <= nb)%N -> (forall k, (k < nb)%N -> (qP s k < nb)%N) -> low s ->
  low (putback N j2 nb s) /\ qb (putback N j2 nb s) = qb s.
Proof using All.
  move=> h1 hP [hA hc]; rewrite /putback.
  have : forall k, k \in iota j2 (nb - j2) -> (j2 <= k < nb)%N by move=> k; rewrite mem_iota; lia.
  elim: (iota _ _) s hP hA hc => [|k l IH] s hP hA hc hl; first by [].
  rewrite [foldl _ _ _]/=; have hk : (j2 <= k < nb)%N by apply: hl; rewrite inE eqxx.
  have hl' : forall k', k' \in l -> (j2 <= k' < nb)%N by move=> k' h; apply: hl; rewrite inE h orbT.
  case: ifP => hp; last exact: IH.
  have Pk := hP k ltac:(lia).
  have [c2 n2] := @swapc (qc s) k (qP s k) (fun k h => hc k ltac:(lia)) ltac:(lia) ltac:(lia).
  have := IH (PS (swapAc N k (qP s k) (qA s)) (qb s) (qP s) (qd s) (swapcn k (qP s k) (qc s)) (qr s)); apply=> //=.
    by apply: swapW => //; lia.
  move=> k' hk'; case: (ltnP k' nb) => h; first by apply: c2; lia.
  have -> : k' = nb by lia.
  by rewrite n2 hc //; lia.
Qed.

Lemma sum1 lo hi b (x : C) : \sum_(lo <= i < hi) (if i == b then x else 0) = if (lo <= b < hi)%N then x else 0.
Proof using All.
  elim: hi => [|n IH]; first by rewrite big_geq // andbF.
  case: (leqP lo n) => h; last by rewrite big_geq //; case: ifP => // ?; lia.
  rewrite big_nat_recr //= IH; case: eqP => [<-|ne].
    by rewrite ltnn andbF h ltnSn add0r.
  by rewrite addr0; have -> : (b < n.+1)%N = (b < n)%N by lia.
Qed.
Lemma colnW A lo hi k : (forall i c, A i c = W i c) ->
  colnsq sc hi lo A k = Some (if (lo <= (k == nb) < hi)%N then tau else 0).
Proof using All.
  move=> hA; rewrite /colnsq; congr Some; rewrite -sum1; apply: eq_bigr => i _.
  by rewrite hA /W; case: (k == nb); case: eqP => _; rewrite ?mul1r ?mul0r ?tN00.
Qed.

Lemma bmul0 K oj2 A Z : (forall i c, A i c = W i c) -> (forall k l, (k <= l < K)%N -> Z k l = 0) ->
  forall i c, blockmult true N 0 K oj2 N A Z A i c = W i c.
Proof using All.
  move=> hA hZ i c.
  pose ZW k c' := \sum_(0 <= l < 0 + K) (zelt Z l k)^* * (\sum_(0 <= i < 0 + K) (yelt A i l)^* * A i c' + \sum_(0 + K <= i < N) (A i l)^* * A i c').
  have -> : blockmult true N 0 K oj2 N A Z A i c = if (oj2 <= c < N)%N && (0 <= i < N)%N then
    (if (i < 0 + K)%N then A i c - \sum_(0 <= k < 0 + K) yelt A i k * ZW k c else A i c - \sum_(0 <= k < 0 + K) A i k * ZW k c) else A i c by [].
  have zw k c' : (k < K)%N -> ZW k c' = 0.
    move=> hk; rewrite /ZW big_nat; apply: big1 => l hl; rewrite /zelt.
    by case: ifP => h; rewrite ?hZ ?conjC0 ?mul0r //; lia.
  have z (f : fv C) : \sum_(0 <= k < 0 + K) f k * ZW k c = 0.
    by rewrite big_nat; apply: big1 => k hk; rewrite zw ?mulr0 //; lia.
  by rewrite (z (yelt A i)) (z (A i)) subr0 !if_same hA.
Qed.

Lemma mid_bad s Z0 n : (forall i c, qA s i c = W i c) -> (forall k, (k < N)%N -> qc s k = Some tau) -> qP s 0 = 0%N ->
  exists s' J, [/\ LBmid nb under n.+2 sc (Some rho) N N 0 1 N s Z0 = Ok (s', J, J), (2 <= J <= nb)%N,
    forall i c, qA s' i c = W i c & forall k, (k < J)%N -> qb s' k = 0].
Proof using All.
  move=> hA hc hP; rewrite LBmidS // add0n.
  have nl k : (k < N)%N -> nlt (qc s k) (Some rho) = false.
    move=> hk; rewrite hc //=; apply/negbTE; rewrite -real_leNgt ?gtr0_real //.
  have [P1 [EM hP1]] := @MLnone (nb - 1) N 1 nb nb s ltac:(lia) (fun k h => nl k ltac:(lia)).
  have -> : MoveLow (Some rho) N 1 (minn N nb) N s = (PS (qA s) (qb s) P1 (qd s) (qc s) (qr s), nb, N).
    rewrite /MoveLow (minn_idPr _) //; have -> : lowscan (qc s) (Some rho) 1 N.-1 = nb.
      by case: nb nb3 nl => // n' _ nl; rewrite /= nl //; case: ifP.
    have -> : (nb == 1%N) = false by lia.
    by rewrite ltnn EM.
  have i0 : exists s1 Z1, lbstep under sc N 0 0 nb nb (PS (qA s) (qb s) P1 (qd s) (qc s) (qr s)) Z0 = (s1, Z1) /\ inv 1 s1 Z1.
    rewrite /lbstep /=; have [A2 [-> hA2]] := @reflW 0 nb (qA s) (qd s) ltac:(lia) hA.
    eexists; eexists; split; first reflexivity.
    split=> //=.
    - by move=> k hk; rewrite hP1; case: ifP => h; [lia | have -> : k = 0%N by [lia]; rewrite hP; lia].
    - move=> k hk; rewrite /downnorm ifT; last lia.
      rewrite hc; last lia. by rewrite hA2 W0 /= ?mul1r ?subrr //; lia.
    - by rewrite /downnorm ltnn andbF hc.
    - by move=> k hk; rewrite /updv; have -> : (k == 0%N) by lia.
    - move=> k l hkl; rewrite /augment conjC0 eqxx ifT //; lia.
  have [s1 [Z1 [E1 v1]]] := i0.
  have [s2 [Z2 [J [E2 hJ v2 hJ2]]]] := @LBin_bad nb 1 nb s1 Z1 ltac:(lia) ltac:(lia) ltac:(lia) v1.
  have -> : LBin under (nb - 0).+1 sc (Some rho) N 0 0 nb nb (PS (qA s) (qb s) P1 (qd s) (qc s) (qr s)) Z0 = Ok (s2, Z2, J).
    by rewrite subn0 (LBinS _ _ _ E1) //= ?nl //; lia.
  pose s3 := lbtrail sc N N 0 J nb s2 Z2.
  have e3 : s3 = PS (blockmult true N 0 J nb N (qA s2) Z2 (qA s2)) (qb s2) (qP s2) (qd s2)
      (fun k => if (nb <= k < N)%N then (if (J < N - J)%N then nsub (qc s2 k) (colnsq sc J 0 (blockmult true N 0 J nb N (qA s2) Z2 (qA s2)) k)
        else colnsq sc N J (blockmult true N 0 J nb N (qA s2) Z2 (qA s2)) k) else qc s2 k) (qr s2).
    by rewrite /s3 /lbtrail ifT ?subn0 //=; lia.
  have bm := bmul0 nb (iA v2) (iZ v2).
  have l3 : low s3.
    split=> [i c|k hk]; first by rewrite e3; exact: bm.
    rewrite e3 -[qc _ k]/(if _ then _ else _).
    case: ifP => h; last by apply: (ic v2); lia.
    have -> : k = nb by lia.
    rewrite !(colnW _ _ _ bm) eqxx (iN v2) /=; case: ifP => h2; [by rewrite ifT ?subrr //; lia | by rewrite ifF //; lia].
  have [[hA4 hc4] hb4] := @putback_low J s3 ltac:(lia) ltac:(by rewrite e3; exact: (iP v2)) l3.
  set s4 := putback N J nb s3 in hA4 hc4 hb4.
  exists s4, J; split=> //; [|lia|by move=> k hk; rewrite hb4 e3 /= (ib v2)].
  change (LBmid nb under n.+1 sc (Some rho) N N J J N s4 Z0 = Ok (s4, J, J)).
  rewrite LBmidS; last lia.
  have -> : MoveLow (Some rho) N J (minn N (J + nb)) N s4 = (s4, J, J).
    rewrite /MoveLow lowscan_all; [|lia|by move=> k hk; rewrite hc4 /= ?rho0 //; lia].
    by rewrite eqxx hc4 /= ?rho0 //; lia.
  rewrite LBin0 // /= /lbtrail ltnn /putback subnn /=; by case: n => [|n] /=; rewrite ltnn.
Qed.
End Bad.

Section Bad3.
Variable C : numClosedFieldType.
Variables (nb : nat) (under : C -> bool) (eps : C).
Notation N := nb.+1.
Hypotheses (nb3 : (3 <= nb)%N) (eps0 : 0 < eps) (epsN : N%:R * sqrteps eps <= 1).
Notation Wb := (W C nb).

Lemma maxel_const cn (x : C) : (forall k, (k < N)%N -> cn k = Some x) -> maxel cn 0 N = (Some x, 0%N).
Proof using. clear.
  move=> h; rewrite /maxel h //.
  have : forall i, i \in iota 1 (N - 0).-1 -> (i < N)%N by move=> i; rewrite mem_iota; lia.
  elim: (iota _ _) => //= i l IH hl; rewrite h /= ?ltxx; last by apply: hl; rewrite inE eqxx.
  by apply: IH => k hk; apply: hl; rewrite inE hk orbT.
Qed.

Lemma loop_end J s t th Z0 : (2 <= J <= nb)%N -> (forall i c, qA s i c = Wb i c) -> 0 < tNORM t -> 0 < th ->
  LBloop nb under eps nb (Some t) (Some th) N N J (LBrecalc N N (Some t) J s) Z0 = Ok (finish N N J (LBrecalc N N (Some t) J s)).
Proof using All.
  move=> hJ hA tau0 th0; have en : nb = nb.-1.+1 by lia.
  set s2 := LBrecalc _ _ _ _ _.
  have cz k : (J <= k < N)%N -> qc s2 k = Some 0.
    move=> hk; have -> : qc s2 k = colnsq (Some t) N J (qA s) k.
      by rewrite /s2 /LBrecalc ifT; [rewrite -[LHS]/(if (J <= k < N)%N then colnsq (Some t) N J (qA s) k else qc s k) hk|lia].
    rewrite (@colnW C nb under eps nb3 eps0 epsN t tau0 (tNORM t) tau0 (lexx _) (qA s) J N k hA) ifF //.
    by case: (k == nb) => /=; lia.
  move: (@maxelP C (qc s2) J N ltac:(lia)); case Em : maxel => [mx jp] [m1 m2 _].
  have hl : nlt mx (Some th) by rewrite m2 cz //=; lia.
  clearbody s2; have JN : (J < N)%N by lia.
  suff H f : (0 < f)%N -> LBloop nb under eps f (Some t) (Some th) N N J s2 Z0 = Ok (finish N N J s2) by apply: H; lia.
  by case: f => // f _; rewrite LBloopS // Em hl.
Qed.
Lemma fin_bad J s t : (2 <= J <= nb)%N -> (forall i c, qA s i c = Wb i c) -> (forall k, (k < J)%N -> qb s k = 0) ->
  let s' := finish N N J (LBrecalc N N (Some t) J s) in
  (forall i c, qA s' i c = Wb i c) /\ forall k, (k < N)%N -> qb s' k = 0.
Proof using All.
  move=> hJ hA hb; have JN : (J < N)%N by lia.
  rewrite /LBrecalc JN; split=> [i c|k hk] /=; case: ifP => h //.
    by rewrite (W2 under nb3 eps0 epsN) //; lia.
  by apply: hb; lia.
Qed.
(** The result: nothing but the first column. *)
Lemma loose_bad b P d cn0 Z0 :
  exists s, [/\ QRP_Decompose nb under eps false N N Wb b P d cn0 Z0 = Ok s,
    forall i c, qA s i c = Wb i c & forall k, (k < N)%N -> qb s k = 0].
Proof using All.
  have eN : (N - 0 = nb.-1.+2)%N by lia.
  rewrite /QRP_Decompose ltnSn ltn0Sn /LooseBlockQRP.
  have W00 : Wb 0%N 0%N = 1 by rewrite (W0 under nb3 eps0 epsN) //; lia.
  case Es : (qscale N N Wb) => [t|]; last first.
    have /eqP := scNone (leqnn N) (ltn0Sn nb) eps0 Es (i := 0%N) (c := 0%N) isT isT; by rewrite W00 oner_eq0.
  have [tol0 tau0] := scSome (leqnn N) (ltn0Sn nb) eps0 Es.
  have := @thrE C eps N N Wb (leqnn N) (ltn0Sn nb) eps0 b P d cn0; rewrite Es => T; rewrite T.
  set s0 := qstart _ _ _ _ _ _ _ _ in T *.
  set tol := qtol _ _ _ _ in tol0 T *.
  have cW k : colnsq (Some t) N 0 Wb k = Some (tNORM t).
    rewrite (@colnW C nb under eps nb3 eps0 epsN t tau0 (tNORM t) tau0 (lexx _) Wb 0 N k (fun i c => erefl)) ifT //; case: (k == nb) => /=; lia.
  have c1 k : cnq N 0 Wb k = 1.
    have := cW k; rewrite (colnsqE _ _ _ _) => -[e]; apply: (mulIf (lt0r_neq0 tau0)); by rewrite e mul1r.
  have q0 : 0 < sqrteps eps by rewrite /sqrteps sqrtC_gt0.
  have N1 : (1 : C) <= N%:R by rewrite ler1n.
  have q1 : sqrteps eps <= 1.
    by apply: le_trans epsN; rewrite -[X in X <= _]mul1r ler_pmul2r.
  have Ne : 0 <= N%:R * eps <= 1.
    have -> : N%:R * eps = (N%:R * sqrteps eps) * sqrteps eps by rewrite -mulrA /sqrteps -expr2 sqrtCK.
    by rewrite !mulr_ge0 ?ler0n ?(ltW q0) //= mulr_ile1 ?mulr_ge0 ?ler0n ?(ltW q0).
  have tol1 : tol <= 1.
    have -> : tol = (N%:R * eps) * (N%:R * eps).
      rewrite /tol /qtol (eq_bigr (fun _ => 1)); last by move=> k _; exact: c1.
      rewrite big_mkord sumr_const card_ord; by rewrite -!mulrA; do 2 congr (_ * _); rewrite mulrC.
    by case/andP: Ne => n0 n1; exact: mulr_ile1.
  have c0 k : (k < N)%N -> qc s0 k = Some (tNORM t) by move=> hk; rewrite -(cW k); change ((if (k < N)%N then colnsq (Some t) N 0 Wb k else cn0 k) = colnsq (Some t) N 0 Wb k); rewrite hk.
  clearbody tol.
  rewrite LBloopS // (maxel_const c0).
  have -> : nlt (Some (tNORM t)) (Some (tol * tNORM t)) = false.
    apply/negbTE; rewrite /= -real_leNgt ?gtr0_real ?mulr_gt0 //.
    by rewrite -[X in _ <= X]mul1r ler_pmul2r.
  have [rho [er r0 r1]] : exists rho, [/\ LBrth eps N (Some (tol * tNORM t)) (Some (tNORM t)) = Some rho, 0 < rho & rho <= tNORM t].
    rewrite /LBrth [nmul _ _]/=; case: ifP => _.
      by exists (tol * tNORM t); split=> //; [exact: mulr_gt0 | rewrite -[X in _ <= X]mul1r ler_pmul2r].
    by exists (N%:R * sqrteps eps * tNORM t); split=> //; [by rewrite !mulr_gt0 ?ltr0n | rewrite -[X in _ <= X]mul1r ler_pmul2r].
  rewrite er; set s1 := LBstart _ _ _ _.
  have sA : forall i c, qA s1 i c = Wb i c by [].
  have sc1 : forall k, (k < N)%N -> qc s1 k = Some (tNORM t) by exact: c0.
  have sP : qP s1 0 = 0%N by [].
  clearbody s1.
  have [s' [J [E hJ hA hb]]] := @mid_bad C nb under eps nb3 eps0 epsN t tau0 rho r0 r1 s1 Z0 nb.-1 sA sc1 sP.
  rewrite eN E.
  rewrite -[bindO (Ok (s', J, J)) _]/(LBloop nb under eps nb (Some t) (Some (tol * tNORM t)) N N J (LBrecalc N N (Some t) J s') Z0).
  rewrite (loop_end Z0 hJ hA tau0 (mulr_gt0 tol0 tau0)).
  have [fA fb] := fin_bad t hJ hA hb; move: fA fb; set s2 := finish _ _ _ _ => fA fb.
  rewrite [bindO (Ok _) _]/=; eexists; split; first reflexivity.
  - by move=> i c; rewrite (fun_if (fun s => qA s i c)) /= if_same; exact: fA.
  - by move=> k hk; rewrite (fun_if (fun s => qb s k)) /= if_same; exact: fb.
Qed.

End Bad3.
