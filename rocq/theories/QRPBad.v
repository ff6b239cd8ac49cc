(** When N sqrt(eps) > 1 the loose block version makes no progress: every column is below
    the threshold that sends it to the end. *)
From Coq Require Import Ring Field.
From Verif Require Import Base FMat TriSolve RowPerm RingTac Cplx Chol QR QRProofs QRP QRPProofs QRPLoop QRPStrict QRPPerm QRPLoose.
From mathcomp Require Import all_ssreflect all_fingroup all_algebra zify.
Set Implicit Arguments. Unset Strict Implicit. Unset Printing Implicit Defensive.
Import GRing.Theory Num.Theory Order.Theory.
Local Open Scope ring_scope.

Section Diverge.
Variable C : numClosedFieldType.
Variables (nb : nat) (under : C -> bool) (eps : C) (M N : nat) (A0 : fm C) (t : C).
Hypotheses (NM : (N <= M)%N) (nb0 : (0 < nb)%N) (nbN : (nb < N)%N) (eps0 : 0 < eps)
  (big : 1 < N%:R * sqrteps eps) (small : N%:R * eps <= 1).
Hypothesis sc0 : qscale M N A0 = Some t.
Notation tol := (qtol eps M N A0).
Notation thr := (Some (tol * tNORM t)).
Notation sc := (Some t).

Lemma lowscan_all cn (r : option C) lo j3 : (lo <= j3)%N -> (forall k, (lo <= k <= j3)%N -> nlt (cn k) r) -> lowscan cn r lo j3 = lo.
Proof using. clear -C.
  elim: j3 => [|j IH] h hk /=; first by lia.
  case: (ltnP lo j.+1) => h1; last by lia.
  rewrite hk; last lia. by apply: IH => [|k hk2]; [lia|apply: hk; lia].
Qed.

Lemma midstuck n (rth : option C) s1 Z0 : (1 < N)%N -> (forall k, (k < N)%N -> nlt (qc s1 k) rth) ->
  nlt (qc (putback M 0 1 s1) 0) rth ->
  LBmid nb under n.+2 sc rth M N 0 1 N s1 Z0 = Ok (putback M 0 1 s1, 0%N, 0%N).
Proof using All.
  move=> N1 low low2; rewrite LBmidS; last lia.
  have -> : MoveLow rth M 1 (minn N (0 + nb)) N s1 = (s1, 1%N, 1%N).
    by rewrite /MoveLow lowscan_all ?eqxx ?low // => [|k hk]; [lia|apply: low; lia].
  have -> : LBin under (1 - 0).+1 sc rth M 0 0 1 1 s1 Z0 = Ok (s1, Z0, 0%N).
    by rewrite /= low //; lia.
  set s2 := putback M 0 1 s1 in low2 *.
  change (LBmid nb under n.+1 sc rth M N 0 0 1 s2 Z0 = Ok (s2, 0%N, 0%N)).
  rewrite LBmidS //.
  have -> : MoveLow rth M 0 (minn 1 (0 + nb)) 1 s2 = (s2, 0%N, 0%N) by rewrite /MoveLow /= low2.
  rewrite /= /lbtrail /putback /=; by case: n.
Qed.

Definition same (s : pst C) : Prop :=
  (forall i c, qA s i c = A0 i c) /\ forall k, (k < N)%N -> qc s k = Some (cnq M 0 A0 k * tNORM t).

Lemma stuck fuel s Z0 : same s -> LBloop nb under eps fuel sc thr M N 0 s Z0 = UB.
Proof using All.
  have N0 : (0 < N)%N by lia.
  have [tol0 t0] := scSome NM N0 eps0 sc0.
  elim: fuel s => [|f IH] s [eA ec].
    by rewrite /= N0.
  rewrite LBloopS //; have := maxelP (qc s) N0; case E : maxel => [mx jp] [m1 m2 m3].
  rewrite subn0 add0n in m1 m2.
  have re k : (0 <= k < N)%N -> isreal (qc s k).
    by move=> hk; rewrite ec //; exists (cnq M 0 A0 k * tNORM t) => //; rewrite ger0_real // mulr_ge0 ?cnq_ge0 ?tN0.
  have le k : (k < N)%N -> cnq M 0 A0 k <= cnq M 0 A0 jp.
    move=> hk; have := m3 re k hk; rewrite m2 !ec //= ltr_pmul2r // -real_leNgt ?ger0_real ?cnq_ge0 //.
  have tolle : tol <= cnq M 0 A0 jp.
    have h1 : \sum_(0 <= k < N) cnq M 0 A0 k <= N%:R * cnq M 0 A0 jp.
      rewrite big_mkord mulr_natl -[X in _ <= _ *+ X]card_ord -sumr_const.
      by apply: ler_sum => i _; apply: le.
    apply: le_trans (_ : N%:R * (eps * eps) * (N%:R * cnq M 0 A0 jp) <= _).
      by rewrite /qtol; apply: ler_wpmul2l => //; rewrite !mulr_ge0 ?ler0n ?(ltW eps0).
    have -> : N%:R * (eps * eps) * (N%:R * cnq M 0 A0 jp) = (N%:R * eps) * (N%:R * eps) * cnq M 0 A0 jp.
      by rewrite -!mulrA; congr (_ * _); rewrite !mulrA; congr (_ * _); rewrite mulrAC -!mulrA; congr (_ * _); rewrite mulrC.
    rewrite -[X in _ <= X]mul1r; apply: ler_wpmul2r; first exact: cnq_ge0.
    have e0 : 0 <= N%:R * eps by rewrite mulr_ge0 ?ler0n ?(ltW eps0).
    by rewrite -[X in _ <= X](mulr1 1); apply: ler_pmul.
  have mx0 : 0 < cnq M 0 A0 jp by apply: lt_le_trans tolle.
  have hcut : nlt mx thr = false.
    rewrite m2 ec //=; apply/negbTE; rewrite -real_leNgt; first by rewrite ler_pmul2r.
      by rewrite gtr0_real // mulr_gt0.
    by rewrite ger0_real // mulr_ge0 ?cnq_ge0 ?tN0.
  rewrite hcut; set rth := LBrth _ _ _ _.
  have low k : (k < N)%N -> nlt (qc s k) rth.
    move=> hk; have l1 : cnq M 0 A0 k * tNORM t < N%:R * sqrteps eps * (cnq M 0 A0 jp * tNORM t).
      apply: le_lt_trans (_ : cnq M 0 A0 jp * tNORM t < _); first by rewrite ler_pmul2r // le.
      by rewrite -[X in X < _]mul1r ltr_pmul2r // mulr_gt0.
    rewrite ec // /rth /LBrth m2 ec //=; case: ifP => l2 //=; exact: lt_trans l1 l2.
  set s1 := LBstart _ _ _ _.
  have ec1 k : qc s1 k = qc s (tsw 0 jp k).
    by rewrite /s1 /LBstart; case: eqP => [->|_] /=; rewrite ?tsw_same // /swapcn addn0.
  have low1 k : (k < N)%N -> nlt (qc s1 k) rth by move=> hk; rewrite ec1 low // tsw_lt.
  set s2 := putback M 0 1 s1.
  have hs2 : (forall i c, qA s2 i c = A0 i c) /\ forall k, qc s2 k = qc s k.
    rewrite /s2 /putback /= /s1 /LBstart; case: (eqVneq jp 0%N) => [e|ne] /=; first by split.
    rewrite addn0 lt0n ne /=; split=> [i c|k]; last by rewrite /swapcn tswK.
    by rewrite /swapAc /= tswK; case: (i < M)%N; rewrite eA.
  have [eA2 ec2] := hs2.
  have eN : (N - 0 = N.-2.+2)%N by lia.
  rewrite eN midstuck //; [|lia|by rewrite -/s2 ec2 low].
  rewrite -/s2 /=; apply: IH; split; rewrite /LBrecalc N0 //= => k hk.
  by rewrite hk; congr Some; rewrite /cnq mulr_suml; apply: eq_bigr => i _; rewrite eA2 tNORMM.
Qed.

Lemma loose_stuck b P d cn0 Z0 fuel :
  let s := qstart (qscale M N A0) M N A0 b P d cn0 in
  LBloop nb under eps fuel (qscale M N A0) (qthresh eps N (qc s)) M N 0 s Z0 = UB.
Proof using All.
  have N0 : (0 < N)%N by lia.
  move=> s; rewrite /s thrE // sc0; apply: stuck; split=> //= k hk; rewrite hk.
  exact: colnsqE.
Qed.
End Diverge.
