(** The link between a legal Permutation object and mathcomp's 'S_n and
    determinants. *)
From Coq Require Import ZArith List Lia.
From Verif Require Import Base Perm PermSpec PermProofs.
From mathcomp Require Import all_ssreflect all_fingroup all_algebra.
Set Implicit Arguments.
Unset Strict Implicit.
Unset Printing Implicit Defensive.
Import GRing.Theory.

Section Link.
Variable n : nat.
Variable pf : nat -> nat.
Hypothesis pf_lt : forall t, (t < n)%coq_nat -> (pf t < n)%coq_nat.

Lemma tr_tperm (i j x : 'I_n) : tr i j x = tperm i j x :> nat.
Proof.
rewrite /tr; case: tpermP => [->|->|/eqP Hi /eqP Hj].
- by rewrite PeanoNat.Nat.eqb_refl.
- case: PeanoNat.Nat.eqb_spec => [->//|_].
  by rewrite PeanoNat.Nat.eqb_refl.
- case: PeanoNat.Nat.eqb_spec => [/val_inj E|_]; first by rewrite E eqxx in Hi.
  case: PeanoNat.Nat.eqb_spec => [/val_inj E|//].
  by rewrite E eqxx in Hj.
Qed.

Fixpoint nflips (m : nat) : bool :=
  if m is m'.+1 then nflips m' (+) (pf m' != m') else false.

Lemma down_perm m : (m <= n)%N ->
  exists s : 'S_n, (forall i : 'I_n, down pf m i = s i :> nat) /\ odd_perm s = nflips m.
Proof.
elim: m => [|m IH] Hm.
  by exists 1%g; split=> [i|]; rewrite ?perm1 ?odd_perm1.
have [s [Hs Os]] := IH (ltnW Hm).
have Hp : (pf m < n)%N by apply/ltP/pf_lt/ltP.
pose a := Ordinal Hm; pose b := Ordinal Hp.
exists (tperm a b * s)%g; split=> [i|].
  by rewrite permM /= -Hs -tr_tperm.
rewrite odd_mul_tperm Os /= addbC; congr (_ (+) _).
by rewrite -val_eqE /= eq_sym.
Qed.

Lemma up_perm m : (m <= n)%N ->
  exists s : 'S_n, (forall i : 'I_n, up pf m i = s i :> nat) /\ odd_perm s = nflips m.
Proof.
elim: m => [|m IH] Hm.
  by exists 1%g; split=> [i|]; rewrite ?perm1 ?odd_perm1.
have [s [Hs Os]] := IH (ltnW Hm).
have Hp : (pf m < n)%N by apply/ltP/pf_lt/ltP.
pose a := Ordinal Hm; pose b := Ordinal Hp.
exists (s * tperm a b)%g; split=> [i|].
  by rewrite permM /= Hs -tr_tperm.
rewrite odd_permM odd_tperm Os /=; congr (_ (+) _).
by rewrite -val_eqE /= eq_sym.
Qed.
End Link.

(** The sign computed by det(). *)
Definition sgnZ (b : bool) : Z := if b then Zneg xH else Zpos xH.

Lemma det_loop (pv : list nat) n m :
  (forall k, (k < n)%coq_nat -> exists x, nth_error pv k = Some x) ->
  (m <= n)%N ->
  for_up m 0 (fun i d => bindO (rd pv i) (fun pi =>
     Ok (if Nat.eqb pi i then d else Z.opp d))) (Zpos xH) = Ok (sgnZ (nflips (pfun pv) m)).
Proof.
move=> H; elim: m => [|m IH] Hm //.
have [x Hx] := H m (elimT ltP Hm).
have -> : m.+1 = (m + 1)%coq_nat by rewrite plusE addn1.
rewrite for_up_app IH; last exact: ltnW.
rewrite plusE addn1 /= /rd Hx /= (nth_error_pfun _ _ _ Hx).
case: PeanoNat.Nat.eqb_spec => [->|Hn].
  by rewrite eqxx addbF.
have -> : x != m by apply/eqP.
by rewrite addbT; case: (nflips _ _).
Qed.

(** 0/1 matrix of the element access function, over any commutative ring. *)
Definition elem_mx (R : comRingType) (p : permutation) : 'M[R]_(psize p) :=
  \matrix_(i, j) (if Z.eqb (elem p i j) (Zpos xH) then 1%R else 0%R).

Lemma src_perm p : in_range p ->
  exists s : 'S_(psize p), (forall i : 'I_(psize p), src p i = s i :> nat) /\
     perm_det p = Ok (sgnZ (odd_perm s)).
Proof.
move=> H.
have Hpf := in_range_pfun p H.
have D : perm_det p = Ok (sgnZ (nflips (pfun (pvals p)) (psize p))).
  rewrite /perm_det; apply: (det_loop (n := psize p)) => // k Hk.
  by have [x [Hx _]] := H k Hk; exists x.
rewrite D /src; case: (pinv p).
- have [s [Hs Os]] := up_perm Hpf (leqnn _).
  by exists s; split=> //; rewrite Os.
- have [s [Hs Os]] := down_perm Hpf (leqnn _).
  by exists s; split=> //; rewrite Os.
Qed.

Lemma elem_mx_perm (R : comRingType) p (s : 'S_(psize p)) :
  legal p -> (forall i : 'I_(psize p), src p i = s i :> nat) -> elem_mx R p = perm_mx s.
Proof.
move=> H Hs; apply/matrixP => i j; rewrite !mxE.
rewrite elem_src //; [|exact/ltP|exact/ltP].
rewrite Hs; case: PeanoNat.Nat.eqb_spec => [/val_inj ->|Hne]; first by rewrite eqxx.
by case: eqP => [E|//]; rewrite E in Hne.
Qed.

Lemma perm_det_is_det (R : comRingType) p :
  legal p ->
  exists b : bool,
    perm_det p = Ok (sgnZ b) /\ (\det (elem_mx R p) = (-1) ^+ b)%R.
Proof.
move=> H; have [s [Hs Hd]] := src_perm (legal_in_range p H).
exists (odd_perm s); split=> //.
by rewrite (elem_mx_perm R H Hs) det_perm.
Qed.

(** Applying the permutation is multiplying by the 0/1 matrix. *)
Lemma perm_apply_mulmx (R : comRingType) p (v w : list R) :
  legal p -> length v = psize p -> perm_apply p v = Ok w ->
  (\col_(i < psize p) List.nth (nat_of_ord i) w 0 =
   elem_mx R p *m \col_(i < psize p) List.nth (nat_of_ord i) v 0)%R.
Proof.
move=> H Hv E.
have [s [Hs _]] := src_perm (legal_in_range p H).
rewrite (elem_mx_perm R H Hs).
have [w' [E' [L N]]] := perm_apply_ok p v (legal_in_range p H) Hv.
move: E'; rewrite E => -[] Ew; subst w'.
rewrite -row_permE; apply/matrixP => i j; rewrite !mxE.
have := N i (elimT ltP (ltn_ord i)).
rewrite Hs => Hn.
have Hwi : (i < length w)%coq_nat by rewrite L Hv; apply/ltP.
have Hvi : (s i < length v)%coq_nat by rewrite Hv; apply/ltP.
have [a Ha] := nth_error_lt w i Hwi.
rewrite (nth_error_nth _ _ _ Ha).
by rewrite Ha in Hn; rewrite (nth_error_nth _ _ _ (esym Hn)).
Qed.
