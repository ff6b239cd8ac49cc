(** Permutations made of disjoint exchanges, and the algebra of one block of the loose
    version of QRP_Decompose. *)
From Coq Require Import Ring Field.
From Verif Require Import Base FMat TriSolve RowPerm RingTac Cplx Chol QR QRProofs QRP QRPProofs QRPLoop QRPStrict.
From mathcomp Require Import all_ssreflect all_fingroup all_algebra zify.
Set Implicit Arguments. Unset Strict Implicit. Unset Printing Implicit Defensive.
Import GRing.Theory Num.Theory Order.Theory.

Section Perm.
Implicit Types P : nat -> nat.
Lemma psig_inj P lo n : injective (psig P lo n).
Proof. elim: n => [|n IH] a b //; rewrite !psigS => /IH; exact: (can_inj (@tswK _ _)). Qed.
Lemma psig_head P lo n c : psig P lo n.+1 c = tsw lo (P lo) (psig P lo.+1 n c).
Proof. by []. Qed.
Lemma psig_fixpt P lo n c : (forall x, lo <= x < lo + n -> P x = x \/ x <> c /\ P x <> c) -> psig P lo n c = c.
Proof.
  elim: n => // n IH h; rewrite psigS; have -> : tsw (lo + n) (P (lo + n)) c = c.
    have [->|[h1 h2]] := h (lo + n) ltac:(lia); first by rewrite tsw_same.
    by rewrite /tsw; case: eqP => [/esym//|_]; case: eqP => [/esym|].
  by apply: IH => x hx; apply: h; lia.
Qed.
Lemma tsw_comm (f : nat -> nat) a b c : injective f -> f a = a -> f b = b -> f (tsw a b c) = tsw a b (f c).
Proof.
  move=> fi fa fb; rewrite /tsw; case: (eqVneq c a) => [->|ca]; first by rewrite fa eqxx.
  case: (eqVneq c b) => [->|cb]; first by rewrite fb; case: eqP => [->|]; rewrite ?eqxx.
  rewrite ifF; last by apply/eqP => e; move/eqP: ca; apply; apply: fi; rewrite fa.
  by rewrite ifF //; apply/eqP => e; move/eqP: cb; apply; apply: fi; rewrite fb.
Qed.
(** One exchange of a disjoint family can be taken out. *)
Lemma psig_out1 P lo n y c : lo <= y < lo + n ->
  (forall x, lo <= x < lo + n -> x <> y -> P x = x \/ [/\ P x <> y, P x <> P y & x <> P y]) ->
  psig P lo n c = tsw y (P y) (psig (updP P y y) lo n c).
Proof.
  elim: n c => [|n IH] c hy h; first lia.
  rewrite !psigS; case: (eqVneq y (lo + n)) => [e|ne].
    rewrite -e (_ : updP P y y y = y) ?tsw_same; last by rewrite /updP eqxx.
    have -> : psig (updP P y y) lo n c = psig P lo n c.
      by apply: psig_ext => x hx; rewrite /updP ifF //; lia.
    apply: tsw_comm; [exact: psig_inj|..]; apply: psig_fixpt => x hx.
      have [|[h1 h2 h3]] := h x ltac:(lia) ltac:(lia); [by left|right; split; lia].
    by have [|[h1 h2 h3]] := h x ltac:(lia) ltac:(lia); [left|right].
  rewrite IH; [|lia|by move=> x hx; apply: h; lia].
  by rewrite (_ : updP P y y (lo + n) = P (lo + n)) // /updP eq_sym (negbTE ne).
Qed.

(** The exchanges of the columns from j on go past J, to different places. *)
Definition disj P (j J : nat) : Prop :=
  (forall x, j <= x < J -> P x = x \/ J <= P x) /\
  (forall x y, j <= x < J -> j <= y < J -> x <> y -> J <= P x -> P x <> P y).

Definition badP (j j2 : nat) P : nat -> nat :=
  if j2 < P j2 then
    (if j2 < P j then updP (updP P j (P j2)) j2 (P j) else updP P j (P j2))
  else updP (if j2 < P j then updP P j2 (P j) else P) j j2.
(** What the exchange of a bad column does to the columns. *)
Definition badcols (j j2 : nat) P (c : nat) : nat :=
  tsw j j2 (if (j2 < P j2) && (j2 < P j) then tsw (P j2) (P j) c else c).

Lemma badP_fr j j2 P x : x <> j -> x <> j2 -> badP j j2 P x = P x.
Proof.
  move=> h1 h2; have e1 : (x == j) = false by apply/eqP.
  have e2 : (x == j2) = false by apply/eqP.
  by rewrite /badP /updP; repeat case: ifP => //; rewrite ?e1 ?e2.
Qed.

Lemma badP_j j j2 P : j <> j2 -> badP j j2 P j = if j2 < P j2 then P j2 else j2.
Proof.
  move=> h; have e1 : (j == j2) = false by apply/eqP.
  by rewrite /badP; case: ifP => h1; [case: ifP => h2|]; rewrite /updP ?e1 eqxx.
Qed.
Lemma badP_j2 j j2 P : j <> j2 -> badP j j2 P j2 = if j2 < P j then P j else P j2.
Proof.
  move=> h; have e1 : (j2 == j) = false by apply/eqP => e; case: h.
  by rewrite /badP; case: ifP => h1; case: ifP => h2; rewrite /updP ?eqxx ?e1 ?eqxx.
Qed.

Lemma badP_psig P j j2 J c : j < j2 < J -> disj P j J ->
  psig (badP j j2 P) j (J - j) c = psig P j (J - j) (badcols j j2 P c).
Proof.
  move=> hj [D1 D2]; have -> : J - j = (J - j.+1).+1 by lia.
  set n := J - j.+1; rewrite !psig_head.
  have hn : j.+1 + n = J by rewrite /n; lia.
  have hP : j2 < P j -> J <= P j by have := D1 j ltac:(lia); lia.
  have hP' : j2 < P j = false -> P j = j by have := D1 j ltac:(lia); lia.
  have hQ : j2 < P j2 -> J <= P j2 by have := D1 j2 ltac:(lia); lia.
  have hQ' : j2 < P j2 = false -> P j2 = j2 by have := D1 j2 ltac:(lia); lia.
  have hPQ : j2 < P j -> P j <> P j2 by move=> h; apply: D2; [lia|lia|lia|exact: hP].
  have out (R : nat -> nat) : (forall x, j.+1 <= x < J -> x <> j2 -> R x = P x) -> (R j2 = j2 \/ R j2 = P j2 \/ (R j2 = P j /\ j2 < P j)) ->
     forall c, psig R j.+1 n c = tsw j2 (R j2) (psig (updP P j2 j2) j.+1 n c).
    move=> h1 h2 c0; rewrite (@psig_out1 _ _ _ j2); [|lia|].
      by congr (tsw _ _ _); apply: psig_ext => x hx; rewrite /updP; case: eqP => // ne; apply: h1; lia.
    move=> x hx ne; rewrite h1; [|lia|by []]. 
    have [e|hx2] := D1 x ltac:(lia); first by left.
    have d1 := D2 x j2 ltac:(lia) ltac:(lia) ne hx2. have d2 := D2 x j ltac:(lia) ltac:(lia) ltac:(lia) hx2.
    have e1 := D1 j ltac:(lia). have e2 := D1 j2 ltac:(lia).
    right; split; [lia|case: h2 => [->|[->|[-> _]]] //; lia|case: h2 => [->|[->|[-> _]]] //; lia].
  rewrite [in RHS](out P) //; last by right; left.
  rewrite [in LHS](out (badP j j2 P)); last first.
  - by rewrite badP_j2; [|lia]; case: ifP => h; right; [right|left].
  - by move=> x hx ne; apply: badP_fr => //; lia.
  set r := psig (updP P j2 j2) j.+1 n.
  have ri : injective r by exact: psig_inj.
  have fx y : (y = j \/ y = j2 \/ (y = P j /\ j2 < P j) \/ (y = P j2 /\ j2 < P j2)) -> r y = y.
    move=> hy; apply: psig_fixpt => x hx; rewrite /updP; case: eqP => [->|ne]; first by left.
    have [e|hx2] := D1 x ltac:(lia); first by left.
    have d1 := D2 x j2 ltac:(lia) ltac:(lia) ne hx2. have d2 := D2 x j ltac:(lia) ltac:(lia) ltac:(lia) hx2.
    by right; case: hy => [->|[->|[[-> h]|[-> h]]]]; split=> //; lia.
  have r1 a b d : (a = j \/ a = j2 \/ (a = P j /\ j2 < P j) \/ (a = P j2 /\ j2 < P j2)) ->
      (b = j \/ b = j2 \/ (b = P j /\ j2 < P j) \/ (b = P j2 /\ j2 < P j2)) -> r (tsw a b d) = tsw a b (r d).
    by move=> ha hb; apply: tsw_comm => //; apply: fx.
  rewrite /badcols r1; [|by left|by right; left].
  case Eq : (j2 < P j2); case Ep : (j2 < P j) => /=.
  - rewrite (r1 (P j2) (P j)); [|by right; right; right|by right; right; left].
    rewrite badP_j ?badP_j2 ?Eq ?Ep; [|lia|lia].
    have := hP Ep; have := hQ Eq; have := hPQ Ep; move: (r c) (P j) (P j2) => x p q h1 h2 h3.
    rewrite /tsw; do !case: eqP => //=; lia.
  - rewrite badP_j ?badP_j2 ?Eq ?Ep; [|lia|lia].
    have := hQ Eq; have := hP' Ep; move: (r c) (P j) (P j2) => x p q -> h2.
    rewrite /tsw; do !case: eqP => //=; lia.
  - rewrite badP_j ?badP_j2 ?Eq ?Ep; [|lia|lia].
    have := hP Ep; have := hQ' Eq; move: (r c) (P j) (P j2) => x p q -> h2.
    rewrite /tsw; do !case: eqP => //=; lia.
  - rewrite badP_j ?badP_j2 ?Eq ?Ep; [|lia|lia].
    have := hP' Ep; have := hQ' Eq; move: (r c) (P j) (P j2) => x p q -> ->.
    rewrite /tsw; do !case: eqP => //=; lia.
Qed.
End Perm.
