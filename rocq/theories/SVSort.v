(** D.sort(p,Descend) for the singular values: C07 in terms of functions. *)
From Verif Require Import Base FMat RowPerm Cplx BidiagQR Perm PermSpec PermProofs Sort Claims_Sort QR QRDiv Bidiag BidiagFinal SVDecompose.
From mathcomp Require Import all_ssreflect all_algebra zify.
Set Implicit Arguments. Unset Strict Implicit. Unset Printing Implicit Defensive.
Import GRing.Theory Num.Theory Order.Theory.
Local Open Scope ring_scope.

Lemma down_psig P n k : down P n k = psig P 0 n k.
Proof.
  elim: n k => [|n IH] k //; rewrite psigS /= IH; congr (psig _ _ _ _).
Qed.

Section Proofs.
Variable C : numClosedFieldType.
Lemma re_strict_weak : strict_weak (fun a b : C => 'Re a < 'Re b).
Proof.
  split; [|split] => [x|x y z|x y z]; first exact: ltxx; first exact: lt_trans.
  have le a b : ('Re a < 'Re b) = false -> 'Re b <= 'Re a.
    by move=> h; rewrite real_leNgt ?Creal_Re // h.
  move=> /le h1 /le h2; apply/negbTE; rewrite -real_leNgt ?Creal_Re //; exact: le_trans h2 h1.
Qed.
Lemma nth_error_map_iota (D : fv C) n k : (k < n)%N -> List.nth_error (map D (iota 0 n)) k = Some (D k).
Proof.
  have H o : (k < n)%N -> List.nth_error (map D (iota o n)) k = Some (D (o + k)%N).
    elim: n o k => [|n IH] o [|k] // hk; first by rewrite addn0.
    by rewrite /= IH // addSnnS.
  exact: H.
Qed.
Lemma sortpP stdsort : std_sort_contract stdsort -> sorts_desc (@sortp C stdsort).
Proof.
  move=> hs n D r; rewrite /sortp.
  have hn : (length (map D (iota 0 n)) = n)%N by rewrite -[length _]/(size _) size_map size_iota.
  have hb : (length (map D (iota 0 n)) <= length (nseq n 0%N))%coq_nat.
    by rewrite hn -[length _]/(size _) size_nseq.
  have ho (a b : C) : ('Re (- a) < 'Re (- b)) = ('Re b < 'Re a).
    by rewrite !raddfN ltr_oppl opprK.
  have [P [w [-> [or [_ [lg ap]]]]]] := C07_sort_with_permutation C C id -%R _ stdsort Descend _ _ re_strict_weak ho hs hb.
  rewrite hn in lg ap.
  have [w' [ap' [_ nw]]] := perm_apply_ok _ _ (legal_in_range _ lg) hn.
  have ew : w' = w by move: ap'; rewrite ap => -[].
  subst w'; split.
    by move=> k hk; have := in_range_pfun _ (legal_in_range _ lg) k; move/ssrnat.ltP: hk => hk /(_ hk) /ssrnat.ltP.
  move=> k hk.
  have lt j : (j < n)%N -> (psig (pfun P) 0 n j < n)%N.
    move=> hj; have /ssrnat.ltP := src_lt _ j (legal_in_range _ lg) (ltac:(by apply/ssrnat.ltP)).
    by rewrite /src /= down_psig.
  have nt j : (j < n)%N -> List.nth_error w j = Some (D (psig (pfun P) 0 n j)).
    move=> hj; rewrite nw; last by apply/ssrnat.ltP.
    by rewrite /src /= down_psig nth_error_map_iota // lt.
  have := or k k.+1 _ _ _ (nt _ (ltnW hk)) (nt _ hk).
  move=> /(_ ltac:(lia)) h.
  have r1 := r _ (lt _ hk); have r2 := r _ (lt _ (ltnW hk)).
  move: h => /=; rewrite (Creal_ReP _ r1) (Creal_ReP _ r2) => h.
  by rewrite real_leNgt // h.
Qed.
End Proofs.
