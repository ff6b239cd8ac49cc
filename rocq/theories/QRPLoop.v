(** Proofs about QRP.v: one step, and the column-by-column loop. *)
From Coq Require Import Ring Field.
From Verif Require Import Base FMat TriSolve RowPerm RingTac Cplx Chol QR QRProofs QRP QRPProofs.
From mathcomp Require Import all_ssreflect all_fingroup all_algebra zify.
Set Implicit Arguments. Unset Strict Implicit. Unset Printing Implicit Defensive.
Import GRing.Theory Num.Theory Order.Theory.
Local Open Scope ring_scope.

Section Step.
Variable C : numClosedFieldType.
Variables (M N : nat) (A0 : fm C) (b0 : fv C) (P0 : nat -> nat) (d0 : C) (strict : bool) (sc : option C).
Hypothesis NM : (N <= M)%N.
Implicit Types (A X : fm C) (b : fv C) (P : nat -> nat) (cn : nat -> option C).

Lemma tNORMM (x y : C) : tNORM (x * y) = tNORM x * tNORM y.
Proof using. by rewrite !tNORM_norm normrM exprMn. Qed.
Lemma colnsqE j A k s : colnsq (Some s) M j A k = Some (cnq M j A k * tNORM s).
Proof using. by rewrite /colnsq /cnq mulr_suml; congr Some; apply: eq_bigr => i _; rewrite tNORMM. Qed.
Lemma colnsq_ext m j A k A' k' : cnq m j A k = cnq m j A' k' -> colnsq sc m j A k = colnsq sc m j A' k'.
Proof using.
  by case: sc => // s h; rewrite /colnsq; congr Some; transitivity (cnq m j A k * tNORM s); [|rewrite h];
    rewrite /cnq mulr_suml; apply: eq_bigr => i _; rewrite tNORMM.
Qed.

Record full (j : nat) A b P (d : C) cn : Prop := Full {
  f_p : pinv M N A0 d0 j A b P d;
  f_n : forall k, (j <= k < N)%N -> cn k = colnsq sc M j A k;
  f_z : sc -> zinv j A;
  f_o : strict -> oinv M N j A;
  f_b : forall k, (N <= k)%N -> b k = b0 k;
  f_P : forall k, (N <= k)%N -> P k = P0 k }.

Lemma full_step j p A b P d cn A1 A' bj d1 d' cn' : (j < N)%N -> (j <= p < N)%N -> full j A b P d cn ->
  (forall i c, A1 i c = swapAc M j p A i c) -> d1 = (if p == j then d else - d) ->
  qinv M j 1 N A1 A' (fun k => (updv b j bj k)^*) d1 d' ->
  (strict -> forall k, (j <= k < N)%N -> cnq M j A k <= cnq M j A p) ->
  (sc -> 0 < cnq M j A p) ->
  (forall k, (j < k < N)%N -> cn' k = nsub (cn (tsw j p k)) (if sc is Some s then Some (tNORM (A' j k * s)) else None)) ->
  full j.+1 A' (updv b j bj) (updP P j p) d' cn'.
Proof using NM.
  move=> hj hp [fp fn fz fo fb fP] eA ed Q mx pos ecn.
  have hjM : (j < M)%N by lia.
  have nA k : (j <= k < N)%N -> cnq M j A1 k = cnq M j A (tsw j p k).
    by move=> h; apply: cnq_ext => i hi; rewrite eA /swapAc ifT //; lia.
  have tj : tsw j p j = p by rewrite /tsw eqxx.
  have hj2 : (j <= j < N)%N by lia.
  have ht k : (j <= k < N)%N -> (j <= tsw j p k < N)%N by rewrite /tsw; case: eqP => _ //; case: eqP.
  split.
  - exact: pinv_step hj hp fp eA ed Q.
  - move=> k hk; have hjk : (j <= k < N)%N by lia.
    rewrite ecn // fn; last exact: ht. have [_ _ nk] := refl_norm hjM hj Q; have := nk k hk; rewrite nA //.
    case: sc => // s e; rewrite !colnsqE /= e tNORMM; congr Some; rewrite mulrDl addrC addKr //.
  - move=> h; apply: zinv_step hj hp eA Q (fz h) _ => //; by rewrite nA // tj; apply: pos.
  - move=> h; apply: oinv_step hj hp eA Q (fo h) _ => // k hk; rewrite !nA // tj; apply: mx => //; exact: ht.
  - by move=> k hk; rewrite /updv ifF ?fb //; lia.
  - by move=> k hk; rewrite /updP ifF ?fP //; lia.
Qed.
End Step.

Section Loop.
Variable C : numClosedFieldType.
Variables (under : C -> bool) (eps : C).
Variables (M N : nat) (A0 : fm C) (b0 : fv C) (P0 : nat -> nat) (d0 : C) (strict : bool) (sc thr : option C).
Hypothesis NM : (N <= M)%N.
(** What is cut off has at most this squared norm. *)
Definition qtol : C := N%:R * (eps * eps) * \sum_(0 <= k < N) cnq M 0 A0 k.
Hypothesis eps0 : 0 < eps.
Hypothesis Hthr : thr = if sc is Some s then Some (qtol * tNORM s) else None.
Hypothesis Hpos : forall s, sc = Some s -> 0 < qtol /\ 0 < tNORM s.
Hypothesis Hnone : sc = None -> forall i c, (i < M)%N -> (c < N)%N -> A0 i c = 0.
Implicit Types (A X : fm C) (b : fv C) (P : nat -> nat) (cn : nat -> option C).

Notation full' := (full M N A0 b0 P0 d0 strict sc).
Definition fulls (j : nat) (s : pst C) : Prop := full' j (qA s) (qb s) (qP s) (qd s) (qc s).
Definition fullres (s : pst C) : Prop :=
  exists r X, qrpres M N A0 b0 P0 d0 qtol strict true r X (qA s) (qb s) (qP s) (qd s).

Lemma qtol_ge0 : 0 <= qtol.
Proof using All. 
  rewrite /qtol mulr_ge0 ?sumr_ge0 // => [|i _]; last exact: cnq_ge0.
  by rewrite mulr_ge0 ?ler0n ?mulr_ge0 ?(ltW eps0).
Qed.
Lemma fulls_end s : fulls N s -> fullres s.
Proof using All.
  move=> [fp fn fz fo fb fP]; case E : sc => [t|].
    exists N; have h : isSome sc by rewrite E.
    apply: (finishP NM (leqnn N) fp (fun _ => fz h) fo) => //.
    - by move=> k; lia.
    - by move=> i c; rewrite /finA; case: ifP => //; lia.
    - by move=> k; rewrite /finb; case: ifP => //; lia.
    - by move=> k; rewrite /finP; case: ifP => //; lia.
  exists 0%N, (pcols M (qP s) N A0); apply: (finish0 strict true NM fp) => //; [exact: qtol_ge0|exact: Hnone].
Qed.
Lemma fulls_cut j s t : sc = Some t -> (j <= N)%N -> fulls j s ->
  (forall k, (j <= k < N)%N -> cnq M j (qA s) k <= qtol) -> fullres (finish M N j s).
Proof using All.
  move=> E hj [fp fn fz fo fb fP] hk; exists j.
  have h : isSome sc by rewrite E.
  exact: (finishP NM hj fp (fun _ => fz h) fo hk fb fP).
Qed.

Lemma nrm_real j s k : fulls j s -> sc -> (j <= k < N)%N -> isreal (qc s k).
Proof using All.
  move=> F; case E : sc => [t|] // _ hk; exists (cnq M j (qA s) k * tNORM t); first by rewrite (f_n F) // E colnsqE.
  by rewrite ger0_real // mulr_ge0 ?cnq_ge0 ?tN0.
Qed.
(** The columns of the zero matrix. *)
Lemma zcol j s k : sc = None -> fulls j s -> (j <= k < N)%N -> cnq M j (qA s) k = 0.
Proof using All.
  move=> en F hk; have [Q HP] := f_p F.
  have := nsq_unitM (colv M (qA s) k) (Pr_unit (qi_unit Q)); rewrite (qi_trail Q) // !nsq_colv.
  rewrite {1}/cnq big_nat big1 => [|i hi]; last first.
    rewrite /pcols ifT; last lia. rewrite (Hnone en) ?tN00 //.
    by apply: psig_lt; [move=> l hl; have := HP l; lia|lia].
  have hjM : (j <= M)%N by lia.
  rewrite (cnq_cat (qA s) k (leq0n j) hjM) => /esym/eqP; rewrite paddr_eq0 ?cnq_ge0 // => /andP [_ /eqP] //.
Qed.
(** What the largest norm says. *)
Lemma maxP j s mx jp : (j < N)%N -> fulls j s -> maxel (qc s) j N = (mx, jp) ->
  [/\ (j <= jp + j < N)%N, mx = colnsq sc M j (qA s) (jp + j) &
      forall k, (j <= k < N)%N -> cnq M j (qA s) k <= cnq M j (qA s) (jp + j)].
Proof using All.
  move=> hj F E; have := maxelP (qc s) hj; rewrite E => -[h1 h2 h3].
  have hp : (j <= jp + j < N)%N by lia.
  split=> //; first by rewrite h2 addnC (f_n F).
  move=> k hk; have [hs|en] : sc \/ sc = None by case: sc; [left|right].
    2: by rewrite (zcol en F) ?cnq_ge0.
  have := h3 (fun k => nrm_real F hs) k hk; rewrite h2 addnC !(f_n F) //.
  case E2 : sc hs => [t|] // _; rewrite !colnsqE /=; have [_ t0] := Hpos E2.
  by rewrite ltr_pmul2r // real_leNgt // ger0_real // cnq_ge0.
Qed.

Lemma hrM j A d : (j < N)%N -> forall A' (b d' : C), hreflectM under M j N A d = (A', b, d') -> forall beta : fv C,
  qinv M j 1 N A A' (fun k => (updv beta j b k)^*) d d'.
Proof using All. by move=> hj A' b d' E beta; apply: (hreflectMP _ hj E); [lia|rewrite /updv eqxx]. Qed.

(** One step of the loop. *)
Lemma step1 j jp s : (j < N)%N -> (j <= jp + j < N)%N -> fulls j s ->
  (strict -> forall k, (j <= k < N)%N -> cnq M j (qA s) k <= cnq M j (qA s) (jp + j)) ->
  (sc -> 0 < cnq M j (qA s) (jp + j)) ->
  fulls j.+1 (reflstep under sc M N j (pivot M j jp s)).
Proof using All.
  move=> hj hp F mx pos; rewrite /reflstep; case E : hreflectM => [[A' b] d'].
  have eP : qP (pivot M j jp s) = updP (qP s) j (jp + j) by rewrite /pivot; case: eqP => [->|].
  have eb : qb (pivot M j jp s) = qb s by rewrite /pivot; case: eqP.
  rewrite /fulls /= eP eb.
  apply: (full_step NM hj hp F (A1 := qA (pivot M j jp s)) (d1 := qd (pivot M j jp s))) => //.
  - move=> i c; rewrite /pivot; case: eqP => [->|] //=; by rewrite /swapAc tsw_same if_same.
  - by rewrite /pivot; case: (eqVneq jp 0%N) => [->|] /=; [rewrite eqxx|move=> h; rewrite ifF //; lia].
  - exact: hrM E _.
  - move=> k hk; rewrite /downnorm hk; congr (nsub _ _); rewrite /pivot; case: eqP => [->|] //=.
    by rewrite tsw_same.
Qed.

Lemma maxel_ext cn cn' j : (j < N)%N -> (forall k, (j <= k < N)%N -> cn k = cn' k) -> maxel cn j N = maxel cn' j N.
Proof using All.
  move=> hj h; rewrite /maxel h ?leqnn //; set n := (N - j).-1.
  have : (n <= (N - j).-1)%N by []. elim: n => // n IH hn.
  have -> : iota 1 n.+1 = iota 1 n ++ [:: n.+1] by have := iotaD 1 n 1; rewrite addn1 add1n.
  by rewrite !foldl_cat /= -IH ?(ltnW hn) // h //; lia.
Qed.
Lemma fulls_r j s r : fulls j s -> fulls j (with_r s r). Proof using All. by []. Qed.
Lemma fulls_recalc j s : fulls j s -> fulls j (recalc sc M N j s).
Proof using All. by case=> fp fn fz fo fb fP; split=> //= k hk; rewrite hk. Qed.
Lemma fulls_ext j s s' : (forall i c, qA s' i c = qA s i c) -> fulls j s -> qb s' = qb s -> qP s' = qP s -> qd s' = qd s -> qc s' = qc s ->
  qA s' = qA s -> fulls j s'.
Proof using All. by rewrite /fulls => _ F -> -> -> -> ->. Qed.

(** The threshold for a new pivot is positive once it has been set. *)
Definition rpos (j : nat) (s : pst C) : Prop := sc -> (0 < j)%N -> exists2 x, qr s = Some x & 0 < x.
Lemma sqrteps_gt0 : 0 < 4%:R * sqrteps eps.
Proof using All. by rewrite mulr_gt0 ?ltr0n // sqrtC_gt0. Qed.
Lemma reflstep_r j (s : pst C) : qr (reflstep under sc M N j s) = qr s.
Proof using All. by rewrite /reflstep; case: hreflectM => [[A' b] d']. Qed.
Lemma pivot_r j jp (s : pst C) : qr (pivot M j jp s) = qr s.
Proof using All. by rewrite /pivot; case: ifP. Qed.
Lemma pivot0 j (s : pst C) : PS (qA s) (qb s) (updP (qP s) j j) (qd s) (qc s) (qr s) = pivot M j 0 s.
Proof using All. by []. Qed.

Definition NBpiv (j : nat) (s : pst C) : pst C * option C * nat :=
  let: (mx, jp) := maxel (qc s) j N in
  let s := if j == 0%N then with_r s (nmul (4%:R * sqrteps eps) mx) else s in
  if nlt mx (qr s) then
    let s := recalc sc M N j s in
    let: (mx, jp) := maxel (qc s) j N in
    let r := nmul (4%:R * sqrteps eps) mx in
    (with_r s (if nlt r thr then thr else r), mx, jp)
  else (s, mx, jp).
Lemma NBloopS f j s : (j < N)%N -> NBloop under eps f.+1 strict sc thr M N j s =
  if [|| strict, j == 0%N | nlt (qc s j) (qr s)] then
    let: (s, mx, jp) := NBpiv j s in
    if nlt mx thr then Ok (finish M N j s)
    else NBloop under eps f strict sc thr M N j.+1 (reflstep under sc M N j (pivot M j jp s))
  else NBloop under eps f strict sc thr M N j.+1 (reflstep under sc M N j (pivot M j 0 s)).
Proof using All. by rewrite /NBpiv /= => ->; case: maxel => mx jp. Qed.

Lemma NBloopP fuel j s : (N - j <= fuel)%N -> (j <= N)%N -> fulls j s -> rpos j s ->
  exists2 s', NBloop under eps fuel strict sc thr M N j s = Ok s' & fullres s'.
Proof using All.
  elim: fuel j s => [|f IH] j s hf hj F R.
    have -> : j = N by lia.
    by rewrite /= ltnn; exists s => //; apply: fulls_end; have <- : j = N by lia.
  case: (ltnP j N) => hjN; last first.
    rewrite /= ltnNge hjN; by exists s => //; apply: fulls_end; have <- : j = N by lia.
  have next jp s' : (j <= jp + j < N)%N -> fulls j s' -> 
      (strict -> forall k, (j <= k < N)%N -> cnq M j (qA s') k <= cnq M j (qA s') (jp + j)) ->
      (sc -> 0 < cnq M j (qA s') (jp + j)) -> (sc -> exists2 x, qr s' = Some x & 0 < x) ->
      exists2 s'', NBloop under eps f strict sc thr M N j.+1 (reflstep under sc M N j (pivot M j jp s')) = Ok s'' & fullres s''.
    move=> h1 F' h2 h3 h4; apply: IH; [lia|lia|exact: step1|].
    by move=> hs _; rewrite reflstep_r pivot_r; apply: h4.
  rewrite NBloopS //; case: ifP => hpv; last first.
    (* no pivot *)
    move: hpv => /norP [hst] /norP [hj0 hlt]; apply: next => //.
    - by rewrite add0n leqnn.
    - by rewrite (negbTE hst).
    - move=> hs; have [x ex x0] : exists2 x, qr s = Some x & 0 < x by apply: R => //; rewrite lt0n.
      move: hlt; rewrite ex (f_n F) ?leqnn //; case E : sc hs => [t|] // _; rewrite colnsqE /= add0n.
      have [_ t0] := Hpos E; have xr := gtr0_real x0.
      have cr : cnq M j (qA s) j * tNORM t \is Num.real by rewrite ger0_real ?mulr_ge0 ?cnq_ge0 ?tN0.
      rewrite -real_leNgt // => h.
      by have := lt_le_trans x0 h; rewrite pmulr_lgt0.
    - by move=> hs; apply: R => //; rewrite lt0n.
  case E : (maxel (qc s) j N) => [mx jp].
  pose s1 := if j == 0%N then with_r s (nmul (4%:R * sqrteps eps) mx) else s.
  have F1 : fulls j s1 by rewrite /s1; case: ifP.
  have [h1 h2 h3] := maxP hjN F E.
  have c1 : qc s1 = qc s by rewrite /s1; case: ifP.
  have a1 : qA s1 = qA s by rewrite /s1; case: ifP.
  have pm t : sc = Some t -> qtol * tNORM t <= cnq M j (qA s) (jp + j) * tNORM t -> 0 < cnq M j (qA s) (jp + j).
    by move=> et; have [q0 t0] := Hpos et; rewrite ler_pmul2r // => /(lt_le_trans q0).
  pose s2 := if nlt mx (qr s1) then with_r (recalc sc M N j s1) 
       (let r := nmul (4%:R * sqrteps eps) mx in if nlt r thr then thr else r) else s1.
  have e2 : NBpiv j s = (s2, mx, jp).
    rewrite /NBpiv E -/s1; rewrite /s2; case: ifP => // _.
    have -> : maxel (qc (recalc sc M N j s1)) j N = (mx, jp); last by [].
    rewrite -E; apply: maxel_ext => // k hk /=; rewrite hk a1; by rewrite (f_n F).
  rewrite e2 {e2}.
  have F2 : fulls j s2 by rewrite /s2; case: ifP => // _; apply/fulls_r/fulls_recalc.
  have a2 : qA s2 = qA s by rewrite /s2; case: ifP.
  case: ifP => hcut.
    (* the rest is negligible *)
    case Es : sc h2 => [t|] h2; last by move: hcut; rewrite h2.
    exists (finish M N j s2) => //; apply: (fulls_cut Es) => // k hk; rewrite a2.
    move: hcut; rewrite h2 Hthr Es colnsqE /=; have [q0 t0] := Hpos Es; rewrite ltr_pmul2r // => hlt.
    by apply: le_trans (ltW hlt); apply: h3; rewrite ?Es.
  have big : sc -> 0 < cnq M j (qA s) (jp + j).
    case Es : sc => [t|] // _; apply: (pm t Es); move: hcut; rewrite h2 Hthr Es colnsqE /=.
    have [q0 t0] := Hpos Es; move=> /negbT; rewrite -real_leNgt // ger0_real // mulr_ge0 ?cnq_ge0 ?tN0 //; exact: ltW.
  apply: next => //; rewrite ?a2 // => hs.
  have [t Es] : exists t, sc = Some t by case: sc hs => // t; exists t.
  have [q0 t0] := Hpos Es.
  have tp : 0 < qtol * tNORM t by rewrite mulr_gt0.
  have mp : 0 < 4%:R * sqrteps eps * (cnq M j (qA s) (jp + j) * tNORM t) by rewrite mulr_gt0 ?sqrteps_gt0 // mulr_gt0 // big.
  rewrite /s2; case: ifP => _ /=.
    rewrite h2 Hthr Es colnsqE /=; case: ifP => _; by [exists (qtol * tNORM t)|exists (4%:R * sqrteps eps * (cnq M j (qA s) (jp + j) * tNORM t))].
  rewrite /s1; case: (eqVneq j 0%N) => hj0 /=; last by apply: R => //; rewrite lt0n.
  by rewrite h2 Es colnsqE /=; exists (4%:R * sqrteps eps * (cnq M j (qA s) (jp + j) * tNORM t)).
Qed.
End Loop.

Section Start.
Variable C : numClosedFieldType.
Variables (eps : C) (M N : nat) (A0 : fm C).
Hypotheses (NM : (N <= M)%N) (N0 : (0 < N)%N) (eps0 : 0 < eps).
Notation tol := (qtol eps M N A0).

Lemma maxAbs2P : 0 <= maxAbs2 M N A0 /\ forall i c, (i < M)%N -> (c < N)%N -> tABS2 (A0 i c) <= maxAbs2 M N A0.
Proof using All.
  have H n : (n <= N)%N -> let m := foldl (fun s c => foldl (fun s i => if s < tABS2 (A0 i c) then tABS2 (A0 i c) else s) s (iota 0 M)) 0 (iota 0 n) in
      0 <= m /\ forall i c, (i < M)%N -> (c < n)%N -> tABS2 (A0 i c) <= m.
    elim: n => [|n IH] hn; first by split.
    have -> : iota 0 n.+1 = iota 0 n ++ [:: n] by have := iotaD 0 n 1; rewrite addn1 add0n.
    rewrite foldl_cat /=; have [h1 h2] := IH (ltnW hn); set m := foldl _ 0 _ in h1 h2 *.
    have [h3 h4] := foldmax A0 n (iota 0 M) h1; split; first exact: le_trans h3.
    move=> i c hi hc; case: (ltnP c n) => hcn; first exact: le_trans (h2 i c hi hcn) h3.
    by have -> : c = n; [lia|apply: h4; rewrite mem_iota add0n].
  exact: H.
Qed.
Lemma scNone : qscale M N A0 = None -> forall i c, (i < M)%N -> (c < N)%N -> A0 i c = 0.
Proof using All.
  rewrite /qscale; case: eqP => // e _ i c hi hc; have [_ h] := maxAbs2P; have := h i c hi hc; rewrite e => h0.
  by apply/eqP; rewrite -tABS2_eq0 eq_le h0 addr_ge0.
Qed.
Lemma scSome s : qscale M N A0 = Some s -> 0 < tol /\ 0 < tNORM s.
Proof using All.
  rewrite /qscale; case: eqP => // /eqP m0 -[<-]; split; last first.
    by rewrite lt_neqAle tN0 andbT eq_sym tN_eq0 mul1r invr_eq0.
  rewrite /qtol mulr_gt0 ?mulr_gt0 ?ltr0n //; rewrite lt_neqAle sumr_ge0 ?andbT => [|k _]; last exact: cnq_ge0.
  apply: contra m0 => /eqP /esym e; apply/eqP.
  have z i c : (i < M)%N -> (c < N)%N -> A0 i c = 0.
    move=> hi hc; move/eqP: e; rewrite big_mkord psumr_eq0 => [|k _]; last exact: cnq_ge0.
    move=> /allP /(_ (Ordinal hc)); rewrite mem_index_enum => /(_ isT) /= /eqP; rewrite /cnq big_mkord => /eqP.
    rewrite psumr_eq0 => [|k _]; last exact: tN0.
    move=> /allP /(_ (Ordinal hi)); rewrite mem_index_enum => /(_ isT) /=; by rewrite tN_eq0 => /eqP.
  rewrite /maxAbs2; set f : C -> nat -> C := (fun _ _ => _).
  have fz c x : (c < N)%N -> 0 <= x -> f x c = x.
    move=> hc x0; rewrite /f; have : all (fun i => (i < M)%N) (iota 0 M).
      by apply/allP => i; rewrite mem_iota.
    elim: (iota 0 M) => //= i l IH /andP [hi hl].
    have t0 : tABS2 (0 : C) = 0 by apply/eqP; rewrite tABS2_eq0.
    by rewrite z // t0 (le_gtF x0) IH.
  have : all (fun c => (c < N)%N) (iota 0 N) by apply/allP => i; rewrite mem_iota.
  by elim: (iota 0 N) => //= c l IH /andP [hc hl]; rewrite fz // IH.
Qed.
Lemma thrE b P d cn0 : let sc := qscale M N A0 in
  qthresh eps N (qc (qstart sc M N A0 b P d cn0)) = if sc is Some s then Some (tol * tNORM s) else None.
Proof using All.
  rewrite /qthresh /=; case: (qscale M N A0) => [s|].
    set f : option C -> nat -> option C := (fun _ _ => _).
    have H n : (n <= N)%N -> foldl f (Some 0) (iota 0 n) = Some ((\sum_(0 <= k < n) cnq M 0 A0 k) * tNORM s).
      elim: n => [|n IH] hn; first by rewrite big_geq // mul0r.
      have -> : iota 0 n.+1 = iota 0 n ++ [:: n] by have := iotaD 0 n 1; rewrite addn1 add0n.
      rewrite foldl_cat /= IH ?(ltnW hn) // {1}/f hn.
      by rewrite colnsqE big_nat_recr //= mulrDl.
    by rewrite H //= /qtol mulrA.
  case: N N0 => // n _ /=.
  suff -> : forall l, foldl (fun s j => nadd s (if (j < n.+1)%N then None else cn0 j)) None l = None :> option C by [].
  by elim.
Qed.
Lemma fulls0 strict b P d cn0 : fulls M N A0 b P d strict (qscale M N A0) 0 (qstart (qscale M N A0) M N A0 b P d cn0).
Proof using All.
  split=> //=.
  - split=> //; apply: (@qinv_extA _ M 0 0 N A0); last by rewrite /sgn big_geq // mulr1; apply: qinv0.
    by move=> i c; rewrite /pcols; case: ifP.
  - by move=> k hk; rewrite hk.
Qed.
Lemma NonBlockQRP_P under strict b P d cn0 :
  exists2 s, NonBlockQRP under eps strict M N A0 b P d cn0 = Ok s & fullres eps M N A0 b P d strict s.
Proof using All.
  apply: (@NBloopP _ under eps M N A0 b P d strict (qscale M N A0)) => //.
  - exact: thrE.
  - exact: scSome.
  - exact: scNone.
  - by rewrite subn0.
  - exact: fulls0.
Qed.
End Start.
