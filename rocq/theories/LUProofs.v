(** Correctness of the LU decomposition model (LU.v). *)
From Verif Require Import Base FMat TriSolve TriInv RowPerm LU.
From mathcomp Require Import all_ssreflect all_fingroup all_algebra zify.
Set Implicit Arguments. Unset Strict Implicit. Unset Printing Implicit Defensive.
Import GRing.Theory Num.Theory Order.Theory.
Local Open Scope ring_scope.

Section Proofs.
Variable F : numFieldType.
Implicit Types (A : fm F) (v : fv F) (P : nat -> nat).

Lemma absltF (x y : F) : (`|x| < `|y|) = false -> `|y| <= `|x|.
Proof. by rewrite real_ltNge ?normr_real // => /negbFE. Qed.

Lemma amaxP v lo n : (0 < n)%N ->
  (lo <= amax v lo n < lo + n)%N /\ forall i, (lo <= i < lo + n)%N -> `|v i| <= `|v (amax v lo n)|.
Proof.
  move=> Hn; rewrite /amax.
  have := @fold_iota_inv _ (fun m b => (lo <= b < m)%N /\ forall i, (lo <= i < m)%N -> `|v i| <= `|v b|)
    (fun b i => if `|v b| < `|v i| then i else b) lo.+1 n.-1 lo.
  have -> : (lo.+1 + n.-1 = lo + n)%N by lia.
  apply.
  - split; first by lia. by move=> i Hi; have -> : i = lo by lia.
  - move=> i b Hi [h1 h2]; case: ifP => h; split; try lia; move=> k Hk.
    + case: (k =P i) => [->//|Nk]; apply: le_trans (ltW h); apply: h2; lia.
    + case: (k =P i) => [->|Nk]; first by apply: absltF. apply: h2; lia.
Qed.

Definition luinv (M N j : nat) A0 P0 A P : Prop :=
  [/\ forall k, (k < j)%N -> (k <= P k < M)%N,
      forall i c, (i < M)%N -> (c < j)%N ->
        \sum_(0 <= k < j) lower true A i k * upper false A k c = A0 (psig P 0 j i) c,
      forall i c, (i < M)%N -> (j <= c < N)%N -> A i c = A0 (psig P 0 j i) c,
      forall i k, (k < j)%N -> (k < i < M)%N -> `|A i k| <= 1
    & (forall i c, ~~ ((i < M)%N && (c < N)%N) -> A i c = A0 i c) /\
      (forall k, (j <= k)%N -> P k = P0 k)].

(** The same, with column j reduced but not yet pivoted. *)
Definition luhalf (M N j : nat) A0 P0 A P : Prop :=
  [/\ forall k, (k < j)%N -> (k <= P k < M)%N,
      forall i c, (i < M)%N -> (c < j)%N ->
        \sum_(0 <= k < j) lower true A i k * upper false A k c = A0 (psig P 0 j i) c,
      forall i c, (i < M)%N -> (j < c < N)%N -> A i c = A0 (psig P 0 j i) c,
      forall i k, (k < j)%N -> (k < i < M)%N -> `|A i k| <= 1
    & (forall i, (i < M)%N ->
        \sum_(0 <= k < j) lower true A i k * A k j + (if (j <= i)%N then A i j else 0) = A0 (psig P 0 j i) j) /\
      (forall i c, ~~ ((i < M)%N && (c < N)%N) -> A i c = A0 i c) /\
      (forall k, (j <= k)%N -> P k = P0 k)].

Lemma tswC a b i : tsw a b i = tsw b a i.
Proof. by rewrite /tsw; case: (i =P a) => h1; case: (i =P b) => h2; lia. Qed.

Lemma lower_in unit A i k : (k < i)%N -> lower unit A i k = A i k.
Proof. by move=> h; rewrite /lower ifN ?h //; lia. Qed.
Lemma lower_out unit A i k : (i < k)%N -> lower unit A i k = 0.
Proof. by move=> h; rewrite /lower ifN ?ifN //; lia. Qed.
Lemma lower_d A i : lower true A i i = 1.
Proof. by rewrite /lower eqxx. Qed.
Lemma upper_in A k c : (k <= c)%N -> upper false A k c = A k c.
Proof. by move=> h; rewrite /upper; case: eqP => // Ne; rewrite ifT //; lia. Qed.
Lemma upper_out unit A k c : (c < k)%N -> upper unit A k c = 0.
Proof. by move=> h; rewrite /upper ifN ?ifN //; lia. Qed.

Lemma pivP M N j A0 P0 A P A' ip :
  (j < M)%N -> (j < N)%N -> luhalf M N j A0 P0 A P ->
  (j <= ip < M)%N -> A ip j != 0 -> (forall i, (j <= i < M)%N -> `|A i j| <= `|A ip j|) ->
  (forall i c, A' i c = if (i < M)%N && (c < N)%N then
      if (c == j) && (j < i)%N then A (tsw ip j i) j / A ip j else A (tsw ip j i) c
    else A i c) ->
  luinv M N j.+1 A0 P0 A' (updv P j ip).
Proof.
  move=> HjM HjN [I1 I2 I3 I4 [E [I5 I6]]] Hip Hnz Hmax HA'.
  have psE i : psig (updv P j ip) 0 j.+1 i = psig P 0 j (tsw ip j i).
    rewrite psigS add0n {2}/updv eqxx tswC; apply: psig_ext => k Hk.
    by rewrite /updv ifN //; lia.
  have tlt i : (i < M)%N -> (tsw ip j i < M)%N by move=> h; apply: tsw_lt => //; lia.
  have tge i : (j <= i)%N -> (j <= tsw ip j i)%N by move=> h; apply: tsw_ge => //; lia.
  have tfix i : (i < j)%N -> tsw ip j i = i by move=> h; apply: tsw_out; lia.
  have tj : tsw ip j j = ip by rewrite tswC /tsw eqxx.
  have lowE i k : (i < M)%N -> (k < j)%N -> lower true A' i k = lower true A (tsw ip j i) k.
    move=> Hi Hk; case: (ltnP i j) => Hij.
    - rewrite (tfix _ Hij); case: (ltngtP k i) => h; last by rewrite h !lower_d.
      + rewrite !lower_in // HA' Hi (_ : (k < N)%N) /=; last by lia.
        by rewrite ifN ?tfix //; lia.
      + by rewrite !lower_out.
    - have := tge _ Hij => h; rewrite !lower_in; try lia.
      rewrite HA' Hi (_ : (k < N)%N) /=; last by lia. by rewrite ifN //; lia.
  split.
  - move=> k Hk; rewrite /updv; case: eqP => [->|Ne]; first by lia. apply: I1; lia.
  - move=> i c Hi Hc; rewrite psE big_nat_recr //=.
    case: (ltnP c j) => Hcj.
    + rewrite upper_out // mulr0 addr0 -I2 // ?tlt //.
      apply: eq_big_nat => k Hk; rewrite lowE //; congr (_ * _).
      case: (leqP k c) => h; last by rewrite !upper_out.
      rewrite !upper_in // HA' (_ : (k < M)%N) /=; last by lia.
      rewrite (_ : (c < N)%N) /=; last by lia.
      rewrite ifN ?tfix //; lia.
    + have -> : c = j by lia.
      rewrite -E ?tlt //; congr (_ + _).
      * apply: eq_big_nat => k Hk; rewrite lowE //; congr (_ * _).
        rewrite upper_in; last by lia. rewrite HA' HjN (_ : (k < M)%N) /=; last by lia.
        rewrite ifN ?tfix //; lia.
      * rewrite upper_in // (HA' j j) HjM HjN ltnn andbF /= tj.
        case: (ltngtP i j) => h.
        -- by rewrite lower_out // mul0r tfix // ifN //; lia.
        -- rewrite lower_in // HA' Hi HjN eqxx h /= ifT; last by apply: tge; lia.
           by rewrite divfK.
        -- rewrite h tj lower_d mul1r ifT //; lia.
  - move=> i c Hi Hc; rewrite psE -I3 ?tlt //; try lia.
    rewrite HA' Hi (_ : (c < N)%N) /=; last by lia. rewrite ifN //; lia.
  - move=> i k Hk Hi; rewrite HA'.
    have -> : (i < M)%N by lia.
    have -> : (k < N)%N by lia.
    rewrite /=; case: (k =P j) => [Ek|Nk] /=.
    + rewrite ifT; last by lia. rewrite normrM normfV ler_pdivr_mulr ?normr_gt0 // mul1r.
      apply: Hmax. have := tge i; have := tlt i; lia.
    + case: (ltnP i j) => Hij; first by rewrite tfix //; apply: I4; lia.
      apply: I4; first by lia. have := tge i; have := tlt i; lia.
  - split; last by move=> k Hk; rewrite /updv ifN; [apply: I6|]; lia.
    by move=> i c Hic; rewrite HA' (negPf Hic) I5.
Qed.

Lemma zeroP M N j A0 P0 A P A' :
  (j < M)%N -> (j < N)%N -> luhalf M N j A0 P0 A P ->
  (forall i, (j <= i < M)%N -> A i j = 0) ->
  (forall i c, A' i c = A i c) ->
  luinv M N j.+1 A0 P0 A' (updv P j j).
Proof.
  move=> HjM HjN [I1 I2 I3 I4 [E [I5 I6]]] Hz HA'.
  have psE i : psig (updv P j j) 0 j.+1 i = psig P 0 j i.
    rewrite psigS add0n {2}/updv eqxx tsw_same; apply: psig_ext => k Hk.
    by rewrite /updv ifN //; lia.
  have lE i k : lower true A' i k = lower true A i k by rewrite /lower HA'.
  have uE i k : upper false A' i k = upper false A i k by rewrite /upper HA'.
  split.
  - move=> k Hk; rewrite /updv; case: eqP => [->|Ne]; first by lia. apply: I1; lia.
  - move=> i c Hi Hc; rewrite psE big_nat_recr //=.
    under eq_bigr do rewrite lE uE.
    case: (ltnP c j) => Hcj; first by rewrite upper_out // mulr0 addr0 I2.
    have -> : c = j by lia.
    rewrite -E // uE [upper false A j j]upper_in // (Hz j) ?mulr0 ?addr0; last by lia.
    rewrite [if _ then _ else _](_ : _ = 0) ?addr0; last by case: ifP => // h; apply: Hz; lia.
    by apply: eq_big_nat => k Hk; rewrite upper_in //; lia.
  - move=> i c Hi Hc; rewrite psE HA' I3 //; lia.
  - move=> i k Hk Hi; rewrite HA'; case: (k =P j) => [Ek|Nk]; last by apply: I4; lia.
    rewrite Ek Hz ?normr0 ?ler01 //; lia.
  - split; last by move=> k Hk; rewrite /updv ifN; [apply: I6|]; lia.
    by move=> i c Hic; rewrite HA' I5.
Qed.

Lemma nbstepP M N j A0 P0 (S : fm F * (nat -> nat)) : (j < M)%N -> (j < N)%N ->
  luinv M N j A0 P0 S.1 S.2 ->
  post (fun S' => luinv M N j.+1 A0 P0 S'.1 S'.2) (fun _ => False) (nbstep M N j S).
Proof.
  case: S => A P /= HjM HjN HI.
  apply: post_bind.
  apply: (@post_imp _ (fun A1 => luhalf M N j A0 P0 A1 P) _ (fun _ => False)) => //; last first.
  - case: (posnP j) => [j0|jp].
    + subst j; case: HI => I1 I2 I3 I4 [I5 I6]; split=> //=.
      * move=> i c Hi Hc; apply: I3 => //; lia.
      * split=> // i Hi; rewrite big_geq // add0r; apply: I3 => //.
    + apply: post_bind.
      have := TriLDivEqLP CM true j A (fun i => A i j).
      case: (TriLDivEqL _ _ _ _ _) => [r|e|] //=; last by case=> _ [].
      move=> [Hr _]; case: HI => I1 I2 I3 I4 [I5 I6].
      set A1 := redcol j M _.
      have A1c i c : c != j -> A1 i c = A i c.
        by move=> /negPf h; rewrite /A1 /redcol /setcol h.
      have A1u k : (k < j)%N -> A1 k j = r k.
        by move=> h; rewrite /A1 /redcol /setcol eqxx h /= ifN //; lia.
      have A1l i : (j <= i < M)%N -> A1 i j = A i j - \sum_(0 <= k < j) A i k * r k.
        move=> h; rewrite /A1 /redcol eqxx h /= {1}/setcol eqxx /= ifN; last by lia.
        congr (_ - _); apply: eq_big_nat => k Hk; rewrite /setcol eqxx /=.
        rewrite ifN; last by lia. by rewrite ifT //; lia.
      have lE i k : (k < j)%N -> lower true A1 i k = lower true A i k.
        by move=> h; rewrite /lower A1c //; lia.
      split=> //.
      * move=> i c Hi Hc; rewrite -I2 //; apply: eq_big_nat => k Hk; rewrite lE; last by lia.
        by rewrite /upper A1c //; lia.
      * move=> i c Hi Hc; rewrite A1c; last by lia. apply: I3 => //; lia.
      * move=> i k Hk Hi; rewrite A1c; last by lia. by apply: I4.
      * split; last first.
          split=> // i c Hic; rewrite -I5 // /A1 /redcol /setcol.
          case: (c =P j) => [Ec|//] /=. rewrite Ec in Hic *.
          rewrite !ifN //; lia.
        move=> i Hi; rewrite -I3 //; last by lia.
        case: (leqP j i) => Hij.
        -- rewrite A1l; last by lia. rewrite addrC -[RHS]addr0 -addrA; congr (_ + _); apply/eqP; rewrite addrC subr_eq0; apply/eqP.
           by apply: eq_big_nat => k Hk; rewrite lE ?lower_in ?A1u //; lia.
        -- rewrite addr0; have := Hr i Hij; rewrite /= => <-; rewrite -(big_mkord xpredT (fun k => lower true A i k * r k)); apply: eq_big_nat => k Hk.
           by rewrite lE ?A1u //; lia.
  - move=> A1 Hh.
    have [Hip Hmax] := @amaxP (fun i => A1 i j) j (M - j)%N ltac:(lia).
    move: Hip Hmax; set ip := amax _ _ _ => Hip Hmax.
    case: ifP => [|Hnz].
    + rewrite normr_eq0 => /eqP Hz /=.
      apply: (zeroP HjM HjN Hh).
      * move=> i Hi; apply/eqP; rewrite -normr_le0; apply: le_trans (Hmax i _) _; first by lia.
        by rewrite Hz normr0.
      * move=> i c; rewrite /zerocol; case: ifP => // /andP [/eqP -> Hi].
        apply/esym/eqP; rewrite -normr_le0; apply: le_trans (Hmax i _) _; first by lia.
        by rewrite Hz normr0.
    + rewrite normr_eq0 in Hnz; move/negbT: Hnz => Hnz /=.
      apply: (pivP HjM HjN Hh (ip := ip)) => //; try lia.
      * by move=> i Hi; apply: Hmax; lia.
      * set A2 := (if ip != j then _ else _).
        have A2E i c : A2 i c = if (c < N)%N then A1 (tsw ip j i) c else A1 i c.
          rewrite /A2; case: eqP => [->|_] //=; by rewrite tsw_same if_same.
        have A2jj : A2 j j = A1 ip j by rewrite A2E HjN tswC /tsw eqxx.
        rewrite A2jj Hnz => i c; rewrite /divcol !A2E.
        case: (ltnP i M) => Hi /=; last first.
          rewrite !andbF tsw_out ?if_same //; lia.
        case: (ltnP c N) => Hc /=; last by rewrite ifN //; lia.
        by rewrite andbT; case: eqP => [->|].
Qed.

Definition luspec (M N : nat) A0 P0 A P : Prop :=
  [/\ forall k, (k < minn N M)%N -> (k <= P k < M)%N,
      forall i c, (i < M)%N -> (c < N)%N ->
        \sum_(0 <= k < minn N M) lower true A i k * upper false A k c = A0 (psig P 0 (minn N M) i) c,
      forall i k, (k < minn N M)%N -> (k < i < M)%N -> `|A i k| <= 1
    & (forall i c, ~~ ((i < M)%N && (c < N)%N) -> A i c = A0 i c) /\
      (forall k, (minn N M <= k)%N -> P k = P0 k)].

Lemma luinv0 M N A P : luinv M N 0 A P A P.
Proof. by split. Qed.

Lemma luinv_spec M N A0 P0 A P : (N <= M)%N -> luinv M N N A0 P0 A P -> luspec M N A0 P0 A P.
Proof.
  move=> h; rewrite /luspec (minn_idPl h) => -[I1 I2 I3 I4 [I5 I6]]; split=> //.
Qed.

Lemma luinv_spec1 N A0 P0 A P : (0 < N)%N -> luinv 1 N 1 A0 P0 A P -> luspec 1 N A0 P0 A P.
Proof.
  move=> h; rewrite /luspec (minn_idPr h) => -[I1 I2 I3 I4 [I5 I6]]; split=> // i c Hi Hc.
  case: (posnP c) => [->|Hc0]; first by apply: I2.
  rewrite big_nat1 -I3 //; last by lia.
  have -> : i = 0%N by lia. by rewrite lower_d mul1r upper_in.
Qed.

Section Blocks.
Variables nbT nbT2 nb nb2 : nat.
Hypotheses (nbTP : (0 < nbT)%N) (nbT2P : (0 < nbT2)%N).

Lemma solverowP m c0 N A : (c0 <= N)%N ->
  post (fun A' => (forall i c, (i < m)%N -> (c0 <= c < N)%N ->
                     \sum_(0 <= k < m) lower true A i k * A' k c = A i c) /\
                  (forall i c, ~~ ((i < m)%N && (c0 <= c < N)%N) -> A' i c = A i c))
       (fun _ => False) (solverow nbT nbT2 m c0 N A).
Proof.
  move=> Hc; rewrite /solverow; apply: post_bind.
  have := TriLDivEqMLP nbTP nbT2P CM CM true m (N - c0) A (subm 0 c0 A).
  case: (TriLDivEqML _ _ _ _ _ _ _ _ _) => [X|e|] //=; last by case=> _ [].
  move=> [h1 _]; split.
  - move=> i c Hi Hc'; have := h1 i (c - c0)%N Hi ltac:(lia); rewrite {1}/subm add0n subnKC; last by lia.
    move=> <-; rewrite -(big_mkord xpredT (fun k => lower true A i k * X k (c - c0)%N)).
    apply: eq_big_nat => k Hk; rewrite /putm ifT ?subn0 //; lia.
  - move=> i c Hic; rewrite /putm ifN //; lia.
Qed.

Lemma NonBlockLUP M N A P :
  post (fun S => luspec M N A P S.1 S.2) (fun _ => False) (NonBlockLU nbT nbT2 M N A P).
Proof.
  rewrite /NonBlockLU; apply: post_bind.
  apply: (@post_imp _ (fun S => luinv M N (minn N M) A P S.1 S.2) _ (fun _ => False)) => //; last first.
    apply: (@loop_up_inv _ (fun j (S : fm F * (nat -> nat)) => luinv M N j A P S.1 S.2) (fun _ => False)).
    - exact: luinv0.
    - by move=> j S Hj HI; apply: nbstepP => //; lia.
  case=> [A1 P1] /= HI; case: ltnP => h /=; last first.
    by apply: luinv_spec => //; rewrite (minn_idPl h) in HI.
  have h' : minn N M = M by lia. rewrite h' in HI.
  apply: post_bind; have := solverowP M A1 (ltnW h).
  case: (solverow _ _ _ _ _ _) => [A2|e|] //= [g1 g2].
  case: HI => I1 I2 I3 I4 [I5 I6].
  have lE i k : (k < M)%N -> lower true A2 i k = lower true A1 i k.
    by move=> Hk; rewrite /lower g2 //; lia.
  rewrite /luspec h'; split=> //.
  - move=> i c Hi Hc; case: (ltnP c M) => Hcm.
    + rewrite -I2 //; apply: eq_big_nat => k Hk; rewrite lE; last by lia.
      by rewrite /upper g2 //; lia.
    + rewrite -I3 //; last by lia. rewrite -g1 //; last by lia.
      apply: eq_big_nat => k Hk; rewrite lE; last by lia. by rewrite upper_in //; lia.
  - move=> i k Hk Hi; rewrite g2; first by apply: I4. lia.
  - split=> // i c Hic; rewrite g2 ?I5 //; lia.
Qed.

Lemma half0 M N A P : luhalf M N 0 A P A P.
Proof. by split=> //; split=> // i Hi; rewrite big_geq // add0r. Qed.

Lemma allzero v lo n m : (forall i, (lo <= i < n)%N -> `|v i| <= `|v m|) -> `|v m| == 0 ->
  forall i, (lo <= i < n)%N -> v i = 0.
Proof.
  move=> Hm Hz i Hi; apply/eqP; rewrite -normr_le0; apply: le_trans (Hm i Hi) _.
  by rewrite (eqP Hz).
Qed.

Lemma LU1P M N A P : minn N M = 1%N ->
  luspec M N A P (LU1 M A P).1 (LU1 M A P).2.
Proof.
  move=> HR.
  have HM : (0 < M)%N by lia. have HN : (0 < N)%N by lia.
  have [Hip Hmax] := @amaxP (fun i => A i 0%N) 0 M HM.
  have HI : luinv M N 1 A P (LU1 M A P).1 (LU1 M A P).2.
    rewrite /LU1; move: Hip Hmax; set ip := amax _ _ _ => Hip Hmax.
    case: ifP => [Hz|Hnz] /=.
    - apply: (zeroP HM HN (half0 M N A P)) => [i Hi|i c].
      + exact: (allzero Hmax Hz).
      + rewrite /zerocol; case: ifP => // /andP [/eqP -> Hi].
        by rewrite (allzero Hmax Hz).
    - move/negbT: Hnz; rewrite normr_eq0 => Hnz.
      apply: (pivP HM HN (half0 M N A P) Hip Hnz Hmax).
      set A2 := (if ip != 0%N then _ else _).
      have A2E i c : A2 i c = if c == 0%N then A (tsw ip 0 i) c else A i c.
        rewrite /A2; case: (ip =P 0%N) => [->|_] //=; by rewrite tsw_same if_same.
      move=> i c; rewrite /divcol !A2E eqxx (_ : tsw ip 0 0 = ip); last by rewrite tswC /tsw eqxx.
      case: (c =P 0%N) => [->|Nc] /=; last first.
        case: ifP => // h; have -> : ip = 0%N by lia. by rewrite tsw_same.
      rewrite HN andbT; case: (ltnP i M) => Hi /=; last by rewrite andbF tsw_out //; lia.
      by rewrite andbT.
  case: (leqP N M) => h.
  - apply: luinv_spec => //. by have EN : N = 1%N; [lia | rewrite {2}EN].
  - have EM : M = 1%N by lia. rewrite EM in HI *. exact: luinv_spec1.
Qed.

Lemma r2loopP M inv a01 A :
  (0 < M)%N ->
  let: (B, (piv, ip)) := r2loop M inv a01 A in
  (forall i c, B i c = if (1 <= i < M)%N then
                         if c == 0%N then A i 0%N * inv
                         else if c == 1%N then A i 1%N - A i 0%N * inv * a01 else A i c
                       else A i c) /\
  (forall i, (1 <= i < M)%N -> `|B i 1%N| <= piv) /\
  (piv = 0 \/ (1 <= ip < M)%N /\ piv = `|B ip 1%N|).
Proof.
  move=> HM; rewrite /r2loop.
  pose G i c := if c == 0%N then A i 0%N * inv
                else if c == 1%N then A i 1%N - A i 0%N * inv * a01 else A i c.
  have := @fold_iota_inv _ (fun m (S : fm F * (F * nat)) =>
    (forall i c, S.1 i c = if (1 <= i < m)%N then G i c else A i c) /\
    (S.2.1 \is Num.real) /\
    (forall i, (1 <= i < m)%N -> `|G i 1%N| <= S.2.1) /\
    (S.2.1 = 0 \/ (1 <= S.2.2 < m)%N /\ S.2.1 = `|G S.2.2 1%N|))
    (fun S i => let: (A, (piv, ip)) := S in
      let A := updm A i 0 (A i 0%N * inv) in
      let A := updm A i 1 (A i 1%N - A i 0%N * a01) in
      if piv < `|A i 1%N| then (A, (`|A i 1%N|, i)) else (A, (piv, ip))) 1 M.-1 (A, (0, 1%N)).
  have -> : (1 + M.-1 = M)%N by lia.
  set R := foldl _ _ _ => h.
  have {h} : (forall i c, R.1 i c = if (1 <= i < M)%N then G i c else A i c) /\ (R.2.1 \is Num.real) /\
    (forall i, (1 <= i < M)%N -> `|G i 1%N| <= R.2.1) /\
    (R.2.1 = 0 \/ (1 <= R.2.2 < M)%N /\ R.2.1 = `|G R.2.2 1%N|).
    apply: h => /=.
    - split; first by move=> i c; rewrite ifN //; lia.
      split; first exact: real0. split; last by left. by move=> i; lia.
    - move=> i [B [piv ip]] Hi /= [h1 [h2 [h3 h4]]].
      set B2 := updm _ i 1 _.
      have NF : (0 < i < i)%N = false by lia.
      have E1 : B2 i 1%N = G i 1%N.
        by rewrite /B2 /updm !eqxx /= !h1 NF.
      have EB r c : B2 r c = if (1 <= r < i.+1)%N then G r c else A r c.
        rewrite /B2 /updm; case: (r =P i) => [->|Nr] /=.
        + rewrite eqxx /= (_ : (0 < i < i.+1)%N); last by lia.
          case: (c =P 1%N) => [->|N1] /=; first by rewrite !h1 NF.
          case: (c =P 0%N) => [->|N0] /=; rewrite !h1 NF // /G.
          by rewrite (negPf (introN eqP N0)) (negPf (introN eqP N1)).
        + rewrite h1. have -> : (0 < r < i.+1)%N = (0 < r < i)%N by lia. by [].
      case: ifP => Hlt /=; rewrite E1 in Hlt *; split=> //; split=> //; try exact: normr_real.
      + split; last by right; split=> //; lia.
        move=> k Hk; case: (k =P i) => [->//|Nk]; apply: le_trans (ltW Hlt); apply: h3; lia.
      + split; last by case: h4 => [|[h5 h6]]; [left | right; split=> //; lia].
        move=> k Hk; case: (k =P i) => [->|Nk]; last by apply: h3; lia.
        by rewrite real_leNgt ?normr_real // Hlt.
  case: R => B [piv ip] /= [h1 [_ [h3 h4]]]; split=> //; split.
  - by move=> i Hi; rewrite h1 Hi; apply: h3.
  - by case: h4 => [|[h5 h6]]; [left | right; rewrite h1 h5].
Qed.

Lemma half1 M N A0 P0 A P (B : fm F) : (1 < M)%N -> (1 < N)%N -> luinv M N 1 A0 P0 A P ->
  (forall i c, B i c = if (c == 1%N) && (1 <= i < M)%N then A i 1%N - A i 0%N * A 0%N 1%N else A i c) ->
  luhalf M N 1 A0 P0 B P.
Proof.
  move=> HM HN [I1 I2 I3 I4 [I5 I6]] HB.
  have B0 i : B i 0%N = A i 0%N by rewrite HB.
  have lE i : lower true B i 0%N = lower true A i 0%N by rewrite /lower B0.
  split=> //.
  - move=> i c Hi Hc; rewrite -I2 // !big_nat1 lE; have -> : c = 0%N by lia. by rewrite /upper B0.
  - move=> i c Hi Hc; rewrite HB ifN; last by lia. apply: I3 => //; lia.
  - move=> i k Hk Hi; have -> : k = 0%N by lia. rewrite B0; apply: I4; lia.
  - split; last first.
      split=> // i c Hic; rewrite HB ifN ?I5 //. apply/negP => /andP [/eqP Ec Hi]; lia.
    move=> i Hi; rewrite big_nat1 lE -I3 //.
    rewrite (HB 0%N) andbF; case: (posnP i) => [->|Hp]; first by rewrite lower_d mul1r addr0.
    by rewrite lower_in // (HB i) eqxx Hp Hi /= addrC subrK.
Qed.

Lemma stage2 M A0 P0 P B piv ip1 : (1 < M)%N -> luhalf M 2 1 A0 P0 B P ->
  (forall i, (1 <= i < M)%N -> `|B i 1%N| <= piv) ->
  (piv = 0 \/ (1 <= ip1 < M)%N /\ piv = `|B ip1 1%N|) ->
  let: (A, ip1, piv) := if piv == 0 then (zerocol 1 1 M B, 1%N, 0) else (B, ip1, piv) in
  let A := if (piv != 0) && (2 < M)%N then
      let A := if ip1 != 1%N then swapcol 0 ip1 1 (swapcol 1 ip1 1 A) else A in
      divcol 1 2 M (A 1%N 1%N) A
    else A in
  luinv M 2 2 A0 P0 A (updv P 1 ip1).
Proof.
  move=> HM Hh Hmax Hp; case: ifP => [/eqP Hz|Hnz].
  - rewrite eqxx /=.
    have Z i : (0 < i < M)%N -> B i 1%N = 0.
      by move=> Hi; apply/eqP; rewrite -normr_le0 -Hz; apply: Hmax.
    apply: (zeroP HM _ Hh) => // i c; rewrite /zerocol; case: ifP => // /andP [/eqP -> Hi].
    by rewrite Z.
  - case: Hp => [E|[Hip Epiv]]; first by rewrite E eqxx in Hnz.
    rewrite Hnz /=.
    have Hnz' : B ip1 1%N != 0 by rewrite -normr_eq0 -Epiv Hnz.
    apply: (pivP HM _ Hh Hip Hnz') => //; first by move=> i Hi; rewrite -Epiv; apply: Hmax.
    case: ltnP => HM2; last first.
      move=> i c; have -> : ip1 = 1%N by lia.
      rewrite tsw_same; case: ifP => // h; rewrite ifN //; lia.
    set A2 := (if ip1 != 1%N then _ else _).
    have A2E i c : A2 i c = if (c < 2)%N then B (tsw ip1 1 i) c else B i c.
      rewrite /A2; case: (ip1 =P 1%N) => [->|_] /=; first by rewrite tsw_same if_same.
      by rewrite /swapcol; case: c => [|[|c]].
    move=> i c; rewrite /divcol !A2E /= (_ : tsw ip1 1 1 = ip1); last by rewrite tswC /tsw eqxx.
    case: (ltnP c 2) => Hc /=; last by rewrite andbF ifN //; lia.
    case: (ltnP i M) => Hi /=; last by rewrite !andbF tsw_out //; lia.
    by rewrite andbT; case: (c =P 1%N) => [->|].
Qed.

Lemma LU2P M A P : (1 < M)%N -> luspec M 2 A P (LU2 M 2 A P).1 (LU2 M 2 A P).2.
Proof.
  move=> HM; have HM0 : (0 < M)%N by lia.
  apply: luinv_spec => //.
  have [Hip Hmax] := @amaxP (fun i => A i 0%N) 0 M HM0.
  rewrite /LU2; move: Hip Hmax; set ip := amax _ _ _ => Hip Hmax.
  case: ifP => [Hz|Hnz].
  - rewrite eqxx /=.
    set Z := zerocol _ _ _ _.
    have ZE i c : Z i c = A i c.
      rewrite /Z /zerocol; case: ifP => // /andP [/eqP -> Hi]; by rewrite (allzero Hmax Hz).
    have Z0 i : (i < M)%N -> Z i 0%N = 0 by move=> Hi; rewrite ZE (allzero Hmax Hz).
    have HI : luinv M 2 1 A P Z (updv P 0 0%N).
      by apply: (zeroP HM0 _ (half0 M 2 A P)) => // i Hi; apply: (allzero Hmax Hz).
    have Hh : luhalf M 2 1 A P Z (updv P 0 0%N).
      apply: (half1 HM _ HI) => // i c; case: ifP => // /andP [/eqP -> Hi].
      rewrite Z0 ?mul0r ?subr0 //; lia.
    have [Hip1 Hmax1] := @amaxP (fun i => Z i 1%N) 1 (M - 1)%N ltac:(lia).
    move: Hip1 Hmax1; set ip1 := amax _ _ _ => Hip1 Hmax1.
    have := @stage2 M A P (updv P 0 0%N) Z `|Z ip1 1%N| ip1 HM Hh.
    case: ifP => Hp /= h; apply: h; try (right; split=> //; lia).
    + by move=> i Hi; apply: Hmax1; lia.
    + by move=> i Hi; apply: Hmax1; lia.
  - rewrite Hnz /=.
    move/negbT: (Hnz); rewrite normr_eq0 => Hnz'.
    set A1 := (if ip != 0%N then _ else _).
    have A1E i c : A1 i c = if (c < 2)%N then A (tsw ip 0 i) c else A i c.
      rewrite /A1; case: (ip =P 0%N) => [->|_] /=; first by rewrite tsw_same if_same.
      by rewrite /swapcol; case: c => [|[|c]].
    have t0 : tsw ip 0 0 = ip by rewrite tswC /tsw eqxx.
    have A100 : A1 0%N 0%N = A ip 0%N by rewrite A1E /= t0.
    pose D i c := if (c == 0%N) && (1 <= i < M)%N then A1 i c / A ip 0%N else A1 i c.
    have HI : luinv M 2 1 A P D (updv P 0 ip).
      apply: (pivP HM0 _ (half0 M 2 A P) Hip Hnz') => // i c; rewrite /D !A1E.
      case: (ltnP c 2) => Hc /=; last by rewrite andbF ifN //; lia.
      case: (ltnP i M) => Hi /=; last by rewrite !andbF tsw_out //; lia.
      by rewrite andbT; case: (c =P 0%N) => [->|].
    have := @r2loopP M (A1 0%N 0%N)^-1 (A1 0%N 1%N) A1 HM0.
    case: (r2loop _ _ _ _) => B [piv ip1] [EB [Hm1 Hp1]].
    have Hh : luhalf M 2 1 A P B (updv P 0 ip).
      apply: (half1 HM _ HI) => // i c; rewrite EB /D A100.
      case: (ltnP 0 i) => Hi /=; last by rewrite !andbF.
      case: (ltnP i M) => HiM /=; last by rewrite !andbF.
      rewrite ?andbF ?andbT.
      case: (c =P 0%N) => [->|N0] //=; by case: (c =P 1%N) => [->|].
    have := stage2 HM Hh Hm1 Hp1.
    by case: ifP => Hp /=.
Qed.

(** One level of the recursion, from the two halves. *)
Lemma recP M N n1 A P A1 P1 A3 A4 Q A5 : (0 < n1)%N -> (n1 < N)%N -> (N <= M)%N ->
  luspec M n1 A P A1 P1 ->
  (* U01: forward substitution of the permuted right half *)
  (forall i c, (i < n1)%N -> (n1 <= c < N)%N ->
     \sum_(0 <= k < n1) lower true A1 i k * A3 k c = A (psig P1 0 n1 i) c) ->
  (* the rest of the right half *)
  (forall i c, (n1 <= i < M)%N -> (n1 <= c < N)%N ->
     A3 i c = A (psig P1 0 n1 i) c - \sum_(0 <= k < n1) A1 i k * A3 k c) ->
  (forall i c, (c < n1)%N \/ ~~ ((i < M)%N && (c < N)%N) -> A3 i c = A1 i c) ->
  luspec (M - n1) (N - n1) (subm n1 n1 A3) (fun i => P1 (n1 + i)%N) A4 Q ->
  A5 = permrows n1 (fun i => if (n1 <= i < N)%N then (Q (i - n1) + n1)%N else P1 i) n1 (N - n1)
         (putm n1 n1 (M - n1) (N - n1) A3 A4) ->
  luspec M N A P A5 (fun i => if (n1 <= i < N)%N then (Q (i - n1) + n1)%N else P1 i).
Proof.
  move=> H0 H1 HNM.
  have e1 : minn n1 M = n1 by lia.
  have e2 : minn (N - n1) (M - n1) = (N - n1)%N by lia.
  have e3 : minn N M = N by lia.
  move=> Hs1 HU HS HO Hs2; set P2 := (fun i : nat => _); move=> E5.
  move: Hs1 Hs2; rewrite /luspec e1 e2 e3 => -[I1 I2 I4 [I5 I6]] [J1 J2 J4 [J5 J6]].
  have P2a k : (k < n1)%N -> P2 k = P1 k by move=> h; rewrite /P2 ifN //; lia.
  have P2b k : (k < N - n1)%N -> P2 (n1 + k)%N = (n1 + Q k)%N.
    by move=> h; rewrite /P2 ifT ?addKn 1?addnC //; lia.
  have P2c k : (n1 <= k < N)%N -> (k <= P2 k < M)%N.
    move=> h; have := P2b (k - n1)%N; have := J1 (k - n1)%N; rewrite subnKC; lia.
  have P2ge k : (n1 <= k < n1 + (N - n1))%N -> (k <= P2 k)%N by move=> h; have := P2c k; lia.
  have P2lt k : (n1 <= k < n1 + (N - n1))%N -> (k < M)%N /\ (P2 k < M)%N by move=> h; have := P2c k; lia.
  pose s2 := psig P2 n1 (N - n1).
  have s2fix i : (i < n1)%N -> s2 i = i by move=> h; apply: psig_fix.
  have s2lt i : (i < M)%N -> (s2 i < M)%N by move=> h; apply: psig_lt.
  have s2ge i : (n1 <= i)%N -> (n1 <= s2 i)%N by move=> h; apply: psig_ge.
  have s2out i : (M <= i)%N -> s2 i = i by move=> h; apply: (psig_out P2lt).
  have s2sh i : (n1 <= i)%N -> s2 i = (n1 + psig Q 0 (N - n1) (i - n1))%N.
    move=> h; have := @psig_shift Q P2 n1 0 (N - n1) (i - n1); rewrite addn0 subnKC //; apply.
    by move=> k Hk; apply: P2b; lia.
  have psE i : psig P2 0 N i = psig P1 0 n1 (s2 i).
    rewrite -{1}(subnKC (ltnW H1)) psig_cat add0n; apply: psig_ext => k Hk; apply: P2a; lia.
  have A5l i c : (c < n1)%N -> A5 i c = A1 (s2 i) c.
    move=> h; rewrite E5 permrowsE h /putm ifN; last by lia. by apply: HO; left.
  have A5u i c : (i < n1)%N -> (n1 <= c < N)%N -> A5 i c = A3 i c.
    move=> h h'; rewrite E5 permrowsE ifN /putm ?ifN //; lia.
  have A5r i c : (n1 <= i < M)%N -> (n1 <= c < N)%N -> A5 i c = A4 (i - n1)%N (c - n1)%N.
    move=> h h'; rewrite E5 permrowsE ifN /putm ?ifT //; lia.
  have A1u k c : (k < n1)%N -> (c < n1)%N -> A5 k c = A1 k c.
    by move=> h h'; rewrite A5l // s2fix.
  split.
  - move=> k Hk; case: (ltnP k n1) => h; first by rewrite P2a //; apply: I1.
    apply: P2c; lia.
  - move=> i c Hi Hc; rewrite psE (@big_cat_nat _ _ _ n1) //=; last by lia.
    have loE k : (k < n1)%N -> lower true A5 i k = lower true A1 (s2 i) k.
      move=> h; case: (ltnP i n1) => h'.
      + rewrite s2fix //; case: (ltngtP k i) => hk; [| by rewrite !lower_out | by rewrite hk !lower_d].
        by rewrite !lower_in // A1u.
      + have := s2ge _ h' => h''; rewrite !lower_in ?A5l //; lia.
    case: (ltnP c n1) => Hcn.
    + rewrite [X in _ + X]big1_seq ?addr0; last first.
        move=> k; rewrite mem_index_iota => /= Hk; rewrite upper_out ?mulr0 //; lia.
      rewrite -I2 ?s2lt //; apply: eq_big_nat => k Hk; rewrite loE; last by lia.
      congr (_ * _). rewrite /upper A1u //; lia.
    + have -> : \sum_(0 <= k < n1) lower true A5 i k * upper false A5 k c =
                \sum_(0 <= k < n1) lower true A1 (s2 i) k * A3 k c.
        apply: eq_big_nat => k Hk; rewrite loE; last by lia.
        rewrite upper_in ?A5u //; lia.
      case: (ltnP i n1) => Hin.
      * rewrite [X in _ + X]big1_seq ?addr0; last first.
          move=> k; rewrite mem_index_iota => /= Hk; rewrite lower_out ?mul0r //; lia.
        rewrite s2fix // HU //; lia.
      * have hs := s2ge _ Hin; have hs' := s2lt _ Hi.
        have -> : \sum_(n1 <= k < N) lower true A5 i k * upper false A5 k c = A3 (s2 i) c.
          have := J2 (i - n1)%N (c - n1)%N ltac:(lia) ltac:(lia).
          rewrite /subm -s2sh // subnKC // => <-.
          rewrite -{1}(add0n n1) big_addn; apply: eq_big_nat => k Hk; congr (_ * _).
          -- rewrite /lower A5r; try lia. rewrite addnK.
             have -> : (i == (k + n1)%N) = ((i - n1)%N == k) by lia.
             by have -> : (k + n1 < i)%N = (k < i - n1)%N by lia.
          -- rewrite /upper A5r; try lia. rewrite addnK.
             have -> : ((k + n1)%N == c) = (k == (c - n1)%N) by lia.
             by have -> : (k + n1 < c)%N = (k < c - n1)%N by lia.
        rewrite HS; try lia. rewrite addrC.
        have -> : \sum_(0 <= k < n1) lower true A1 (s2 i) k * A3 k c = \sum_(0 <= k < n1) A1 (s2 i) k * A3 k c.
          by apply: eq_big_nat => k Hk; rewrite lower_in //; lia.
        by rewrite subrK.
  - move=> i k Hk Hi; case: (ltnP k n1) => h.
    + rewrite A5l //; apply: I4 => //.
      case: (ltnP i n1) => h'; first by rewrite s2fix //; lia.
      have := s2ge _ h'; have := s2lt i; lia.
    + rewrite A5r; try lia. apply: J4; lia.
  - split.
    + move=> i c Hic; rewrite E5 permrowsE.
      have -> : (if (c < n1)%N then putm n1 n1 (M - n1) (N - n1) A3 A4 (psig P2 n1 (N - n1) i) c
                 else putm n1 n1 (M - n1) (N - n1) A3 A4 i c) = A3 i c.
        case: ltnP => h; last by rewrite /putm ifN //; lia.
        rewrite -/(s2 i) s2out; last by lia. by rewrite /putm ifN //; lia.
      rewrite HO; last by right. apply: I5; lia.
    + move=> k Hk; rewrite /P2 ifN; last by lia. apply: I6; lia.
Qed.

Hypotheses (nbP : (0 < nb)%N) (nb2P : (0 < nb2)%N).

Lemma RecLUP fuel M N A P : (N <= M)%N -> (N < fuel)%N ->
  post (fun S => luspec M N A P S.1 S.2) (fun _ => False) (RecLU nbT nbT2 nb nb2 fuel M N A P).
Proof.
  elim: fuel M N A P => [//|f IH] M N A P HNM Hf /=.
  have eR : minn N M = N by lia. rewrite eR.
  case: ltnP => [Hbig|Hsmall]; last first.
    case: ifP => [_|H2]; first exact: NonBlockLUP.
    case: eqP => [E2|N2]; first by rewrite E2 in HNM *; exact: LU2P.
    case: eqP => [E1|N1]; first by apply: LU1P; lia.
    have {N2 N1} E0 : N = 0%N by lia.
    rewrite E0 /=; apply: luinv_spec => //; exact: luinv0.
  have /andP [Hn0 Hn1] := halveP nbP nb2P Hbig.
  move: Hn0 Hn1; set n1 := halve nb N => Hn0 Hn1.
  apply: post_bind; apply: (post_imp _ _ (IH M n1 A P ltac:(lia) ltac:(lia))) => //.
  case=> [A1 P1] /= Hs1; apply: post_bind.
  set A2 := putm 0 n1 M (N - n1) A1 _.
  have := solverowP n1 A2 (ltnW Hn1).
  case: (solverow _ _ _ _ _ _) => [A2'|e|] //= [g1 g2].
  apply: post_bind.
  set A3 := mulsub n1 M N A2'.
  apply: (post_imp _ _ (IH (M - n1)%N (N - n1)%N (subm n1 n1 A3) (fun i => P1 (n1 + i)%N) ltac:(lia) ltac:(lia))) => //.
  case=> [A4 Q] /= Hs2.
  case: (Hs1) => I1 I2 I4 [I5 I6].
  have e1 : minn n1 M = n1 by lia. rewrite e1 in I1 I2 I4 I6.
  have P1lt i : (i < M)%N -> (psig P1 0 n1 i < M)%N.
    by move=> h; apply: psig_lt => // k Hk; have := I1 k; lia.
  have A2l i c : (c < n1)%N -> A2 i c = A1 i c by move=> h; rewrite /A2 /putm ifN //; lia.
  have A2r i c : (i < M)%N -> (n1 <= c < N)%N -> A2 i c = A (psig P1 0 n1 i) c.
    move=> h h'; rewrite /A2 /putm ifT; last by lia.
    rewrite permrowsE ifT; last by lia. rewrite /subm add0n !subn0 subnKC; last by lia.
    apply: I5; lia.
  have A2o i c : ~~ ((i < M)%N && (c < N)%N) -> A2 i c = A1 i c by move=> h; rewrite /A2 /putm ifN //; lia.
  have A3u k c : (k < n1)%N -> A3 k c = A2' k c by move=> h; rewrite /A3 /mulsub ifN //; lia.
  apply: (recP Hn0 Hn1 HNM Hs1 _ _ _ Hs2) => //.
  - move=> i c Hi Hc; rewrite -A2r ?g1 //; try lia.
    rewrite -g1 //; apply: eq_big_nat => k Hk; rewrite A3u; last by lia.
    by rewrite /lower A2l //; lia.
  - move=> i c Hi Hc; rewrite {1}/A3 /mulsub ifT; last by lia.
    rewrite -A2r; try lia. rewrite g2; last by lia. congr (_ - _).
    apply: eq_big_nat => k Hk; rewrite A3u; last by lia.
    rewrite g2; last by lia. rewrite A2l //; lia.
  - move=> i c Hic; rewrite /A3 /mulsub ifN; last by lia.
    rewrite g2; last by lia. case: Hic => h; [exact: A2l | exact: A2o].
Qed.

Lemma LU_DecomposeP M N A P : (N <= M)%N ->
  post (fun S => luspec M N A P S.1 S.2) (fun _ => False) (LU_Decompose nbT nbT2 nb nb2 M N A P).
Proof.
  move=> h; rewrite /LU_Decompose; case: ifP => h'; first by apply: RecLUP.
  have E0 : N = 0%N by lia.
  rewrite E0; apply: luinv_spec => //; exact: luinv0.
Qed.
End Blocks.
End Proofs.
