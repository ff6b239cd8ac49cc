(** Division with the singular value decomposition: proofs. *)
From Verif Require Import Base FMat TriSolve TriInv RowPerm Cplx Chol Claims_Tri LUDiv QR QRProofs QRDiv QRDivProofs Claims_QR SVDiv.
From mathcomp Require Import all_ssreflect all_fingroup all_algebra zify.
Set Implicit Arguments. Unset Strict Implicit. Unset Printing Implicit Defensive.
Import GRing.Theory Num.Theory Order.Theory.
Local Open Scope ring_scope.

(** The Penrose equations give minimum norm least squares solutions. *)
Section Penrose.
Variable C : numClosedFieldType.
Definition penrose M N (A : 'M[C]_(M, N)) (P : 'M[C]_(N, M)) : Prop :=
  [/\ A *m P *m A = A, P *m A *m P = P, ctr (A *m P) = A *m P & ctr (P *m A) = P *m A].
Lemma ctrT m n (X : 'M[C]_(m, n)) : ctr X^T = (ctr X)^T.
Proof. by apply/matrixP => i j; rewrite !mxE. Qed.
Lemma penroseT M N (A : 'M[C]_(M, N)) P : penrose A P -> penrose A^T P^T.
Proof.
  case=> e1 e2 e3 e4; split; try (by rewrite -!trmx_mul ?mulmxA ?e1 ?e2);
    by rewrite -trmx_mul ctrT ?e3 ?e4.
Qed.
Lemma nsq0 n (u : 'cV[C]_n) : nsq u = 0 -> u = 0.
Proof.
  move=> h; apply/matrixP => i j; rewrite [RHS]mxE ord1.
  have := h; rewrite /nsq => /eqP; rewrite psumr_eq0; last by move=> k _; rewrite -normCK exprn_ge0.
  move/allP => /(_ i (mem_index_enum i)); rewrite /= -normCK expf_eq0 /= normr_eq0 => /eqP; exact.
Qed.
Lemma ctr0 m n : ctr (0 : 'M[C]_(m, n)) = 0.
Proof. by apply/matrixP => i j; rewrite !mxE conjC0. Qed.
Lemma penrose_normal M N K (A : 'M[C]_(M, N)) P (b : 'M[C]_(M, K)) : penrose A P -> ctr A *m (A *m (P *m b) - b) = 0.
Proof.
  case=> e1 e2 e3 e4; rewrite mulmxBr !mulmxA.
  have -> : ctr A *m A *m P = ctr A by rewrite -mulmxA -e3 -ctrM e1.
  by rewrite subrr.
Qed.
Lemma penrose_lsq M N (A : 'M[C]_(M, N)) P (b : 'cV[C]_M) : penrose A P ->
  (forall y, nsq (A *m (P *m b) - b) <= nsq (A *m y - b)) /\
  (forall y, nsq (A *m y - b) = nsq (A *m (P *m b) - b) -> nsq (P *m b) <= nsq y).
Proof.
  move=> H; have nrm := penrose_normal b H; case: H => e1 e2 e3 e4.
  split=> [y|y hy]; first exact: lsq.
  set x := P *m b in nrm hy *.
  have a0 : A *m (y - x) = 0.
    apply: nsq0; apply: (@addrI _ (nsq (A *m x - b))); rewrite addr0 -[RHS]hy -pyth.
      by congr nsq; rewrite mulmxBr addrC addrA subrK.
    have hz : ctr (A *m x - b) *m A = 0 by rewrite -[LHS]ctrK ctrM ctrK nrm ctr0.
    by rewrite mulmxA hz mul0mx.
  have -> : y = x + (y - x) by rewrite addrC subrK.
  rewrite [X in _ <= X]pyth; first by rewrite ler_addl nsq_ge0.
  have ex : x = P *m A *m x by rewrite /x mulmxA e2.
  by rewrite {1}ex ctrM e4 -!mulmxA a0 !mulmx0.
Qed.
End Penrose.

Section Proofs.
Variable C : numClosedFieldType.
Implicit Types (A U Vt m x : fm C) (S : fv C).

Definition dg (k : nat) S : 'M[C]_k := \matrix_(i, j) (if i == j then S i else 0).
Lemma dgM k K S m : dg k S *m mx k K m = mx k K (fun i c => S i * m i c).
Proof.
  apply/matrixP => i j; rewrite !mxE (bigD1 i) //= !mxE eqxx big1 ?addr0 // => l /negbTE h.
  by rewrite !mxE eq_sym h mul0r.
Qed.
Lemma dg_dg k S T : dg k S *m dg k T = dg k (fun i => S i * T i).
Proof.
  apply/matrixP => i j; rewrite !mxE (bigD1 i) //= !mxE eqxx big1 ?addr0 => [|l /negbTE h].
    by case: eqP => [->|_] //; rewrite mulr0.
  by rewrite !mxE eq_sym h mul0r.
Qed.
Lemma dg1 k S : (forall i, (i < k)%N -> S i = 1) -> dg k S = 1%:M.
Proof. by move=> h; apply/matrixP => i j; rewrite !mxE; case: eqP => // _; rewrite h. Qed.
Lemma ctr_dg k S : (forall i, (i < k)%N -> (S i)^* = S i) -> ctr (dg k S) = dg k S.
Proof. by move=> h; apply/matrixP => i j; rewrite !mxE eq_sym; case: eqP => [->|_]; rewrite ?conjC0 ?h. Qed.

Definition sinv S : fv C := fun i => (S i)^-1.
Lemma DiagLDivEqP k K S m : post (fun X =>
    ((0 < K)%N -> forall i, (i < k)%N -> S i != 0) /\
    forall r c, X r c = if (r < k)%N && (c < K)%N then m r c * (S r)^-1 else m r c)
  (fun e => [/\ e = Singular, (0 < K)%N & exists2 i, (i < k)%N & S i = 0]) (DiagLDivEq k K S m).
Proof.
  rewrite /DiagLDivEq; case: (posnP k) => [->|k0] /=; first by split=> // r c; rewrite ltn0.
  case: (posnP K) => [->|K0] /=; first by split=> // r c; rewrite ltn0 andbF.
  apply: post_imp (@loop_up_inv _ (fun n X => (forall i, (i < n)%N -> S i != 0) /\
    forall r c, X r c = if (r < n)%N && (c < K)%N then m r c * (S r)^-1 else m r c)
    (fun e => [/\ e = Singular, (0 < K)%N & exists2 i, (i < k)%N & S i = 0]) _ k m _ _).
  - by move=> X [h1 h2]; split.
  - by move=> e [-> _ h]; split.
  - by split.
  move=> i X hi [h1 hX]; case: eqP => [hz|/eqP hz] /=; first by split=> //; exists i.
  split=> [j|r c]; first by rewrite ltnS leq_eqVlt => /orP [/eqP ->|/h1].
  rewrite !hX ltnS (leq_eqVlt r i); case: (r =P i) => [->|_] /=; last by [].
  by rewrite ltnn /=.
Qed.

Section Svd.
Variables (M N : nat) (U : fm C) (S : fv C) (Vt : fm C).
Hypothesis Uo : orthonormal M N U.
Hypothesis Vo : orthonormal N N (fun j k => (Vt k j)^*).
Variable k : nat.
Hypothesis kN : (k <= N)%N.
Let Uk := mx M k U.
Let Vk := mx k N Vt.
Lemma UkU : ctr Uk *m Uk = 1%:M.
Proof using Uo kN.
  apply/matrixP => i j; rewrite !mxE -[RHS]/((i == j :> nat)%:R).
  by rewrite -(Uo (leq_trans (ltn_ord i) kN) (leq_trans (ltn_ord j) kN)); apply: eq_bigr => l _; rewrite !mxE.
Qed.
Lemma VkV : Vk *m ctr Vk = 1%:M.
Proof using Vo kN.
  apply/matrixP => i j; rewrite !mxE -[RHS]/((i == j :> nat)%:R).
  rewrite -(Vo (leq_trans (ltn_ord i) kN) (leq_trans (ltn_ord j) kN)).
  by apply: eq_bigr => l _; rewrite !mxE conjCK.
Qed.
Definition Ak : 'M[C]_(M, N) := Uk *m dg k S *m Vk.
Definition Pk : 'M[C]_(N, M) := ctr Vk *m dg k (sinv S) *m ctr Uk.
Lemma PkP : (forall i, (i < k)%N -> S i != 0) -> penrose Ak Pk.
Proof using Uo Vo kN.
  move=> S0.
  have e1 : dg k S *m dg k (sinv S) = 1%:M by rewrite dg_dg dg1 // => i hi; rewrite mulfV // S0.
  have e2 : dg k (sinv S) *m dg k S = 1%:M by rewrite dg_dg dg1 // => i hi; rewrite mulVf // S0.
  have AP : Ak *m Pk = Uk *m ctr Uk.
    by rewrite /Ak /Pk !mulmxA -(mulmxA (Uk *m dg k S)) VkV mulmx1 -(mulmxA Uk) e1 mulmx1.
  have PA : Pk *m Ak = ctr Vk *m Vk.
    by rewrite /Ak /Pk !mulmxA -(mulmxA (ctr Vk *m dg k (sinv S))) UkU mulmx1 -(mulmxA (ctr Vk)) e2 mulmx1.
  split.
  - by rewrite AP /Ak !mulmxA -(mulmxA Uk) UkU mulmx1.
  - by rewrite PA /Pk !mulmxA -(mulmxA (ctr Vk)) VkV mulmx1.
  - by rewrite AP ctrM ctrK.
  - by rewrite PA ctrM ctrK.
Qed.
Definition dpost (K : nat) (e : exn) : Prop := [/\ e = Singular, (0 < K)%N & exists2 i, (i < k)%N & S i = 0].

Lemma SV_LDivP K m x0 : post (fun X => ((0 < K)%N -> forall i, (i < k)%N -> S i != 0) /\
    mx N K X = Pk *m mx M K m) (dpost K) (SV_LDiv M N K U S Vt k m x0).
Proof.
  rewrite /SV_LDiv; apply: post_bind.
  apply: post_imp (DiagLDivEqP k K S _) => // X [h hX] /=; split=> //.
  have e : mx k K X = dg k (sinv S) *m (ctr Uk *m mx M K m).
    have -> : ctr Uk *m mx M K m = mx k K (fun i c => \sum_(0 <= k < M) (U k i)^* * m k c).
      by apply/matrixP => i j; rewrite !mxE big_mkord; apply: eq_bigr => l _; rewrite !mxE.
    by rewrite dgM; apply/matrixP => i j; rewrite !mxE hX !ltn_ord /= mulrC.
  rewrite /Pk -!mulmxA -e; apply/matrixP => i j; rewrite !mxE !ltn_ord /= big_mkord.
  by apply: eq_bigr => l _; rewrite !mxE.
Qed.
Lemma SV_RDivP K m x0 : post (fun X => ((0 < K)%N -> forall i, (i < k)%N -> S i != 0) /\
    mx K M X = mx K N m *m Pk) (dpost K) (SV_RDiv M N K U S Vt k m x0).
Proof.
  rewrite /SV_RDiv; apply: post_bind.
  apply: post_imp (DiagLDivEqP k K S _) => // X [h hX] /=; split=> //.
  have e : (mx k K X)^T = mx K N m *m ctr Vk *m dg k (sinv S).
    have -> : mx K N m *m ctr Vk = (mx k K (fun i r => \sum_(0 <= k < N) m r k * (Vt i k)^*))^T.
      by apply/matrixP => i j; rewrite !mxE big_mkord; apply: eq_bigr => l _; rewrite !mxE.
    rewrite -[RHS]trmxK trmx_mul trmxK; congr (_^T).
    have -> : (dg k (sinv S))^T = dg k (sinv S).
      by apply/matrixP => i j; rewrite !mxE eq_sym; case: eqP => [->|].
    by rewrite dgM; apply/matrixP => i j; rewrite !mxE hX !ltn_ord /= mulrC.
  rewrite /Pk !mulmxA -e; apply/matrixP => i j; rewrite !mxE !ltn_ord /= big_mkord.
  by apply: eq_bigr => l _; rewrite !mxE.
Qed.
End Svd.
End Proofs.
