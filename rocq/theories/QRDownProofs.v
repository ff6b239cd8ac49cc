(** Proofs about downdating a QR decomposition. *)
From Coq Require Import Ring Field.
From Verif Require Import Base FMat TriSolve RingTac Cplx Chol Givens QR QRProofs QRUpdate QRUpdateProofs.
From mathcomp Require Import all_ssreflect all_fingroup all_algebra zify.
Set Implicit Arguments. Unset Strict Implicit. Unset Printing Implicit Defensive.
Import GRing.Theory Num.Theory Order.Theory.
Local Open Scope ring_scope.

Section Down.
Variable C : numClosedFieldType.
Add Field Cfd : (mc_ft C).
Ltac mfield := mcnorm C; field.
Ltac mring := mcnorm C; ring.
Variables M N : nat.
Implicit Types (A R Z Ra Rb Rc Aa Ab Ac : fm C) (z : fv C).
Notation L := (N + M)%N.
Notation upd := (upd M N).

Lemma dn_alg (a b v : C) : 1 - b != 0 -> a = (a + b * v) / (1 - b) - b * (v + (a + b * v) / (1 - b)).
Proof. by move=> h; symmetry; mfield; exact/eqP. Qed.

Lemma upd0 o e R A z : upd o 0 e R A R A z.
Proof. split=> //; try (by move=> k hk; exfalso; lia). by move=> c hc; rewrite /= mul1mx. Qed.

(** Why a downdate fails: once the columns [o,o+m) are downdated, column o+m of A is at
    least as long as the diagonal element of R. *)
Definition cert (o n : nat) R A : Prop := exists m e Ra Aa z,
  [/\ (m < n)%N, (o + m < e)%N, upd o m e Ra A R Aa z
    & R (o + m)%N (o + m)%N * R (o + m)%N (o + m)%N <= \sum_(0 <= i < M) tNORM (Aa i (o + m)%N)].

Lemma cert1 o n R A : (0 < n)%N -> R o o * R o o <= \sum_(0 <= i < M) tNORM (A i o) -> cert o n R A.
Proof. by move=> hn h; exists 0%N, o.+1, R, A, (fun _ => 0); rewrite !addn0; split=> //; exact: upd0. Qed.
Lemma cert_le o n n' R A : (n <= n')%N -> cert o n R A -> cert o n' R A.
Proof. by move=> hn [m [e [Ra [Aa [z [h1 h2 h3 h4]]]]]]; exists m, e, Ra, Aa, z; split=> //; lia. Qed.
Lemma cert_next o n1 n2 e R A Ra Aa z : (o + n1 + n2 <= e)%N -> (o + n1 + n2 <= N)%N ->
  upd o n1 e Ra A R Aa z -> cert (o + n1) n2 Ra Aa -> cert o (n1 + n2) R A.
Proof.
  move=> he hN U [m [e2 [Rb [Ab [z2 [h1 h2 V h4]]]]]].
  set k := (o + n1 + m)%N in h2 h4.
  exists (n1 + m)%N, k.+1, Rb, Ab, (fun i => if (i < o + n1)%N then z i else z2 i); rewrite addnA -/k.
  split=> //; first lia.
    apply: (@upd_back _ _ _ _ _ _ k.+1 _ _ Ra Aa _ _ z); [lia|lia| | |].
    - by move=> i hi; rewrite (_ : (i < o + n1)%N) //; lia.
    - by apply: upd_le U; lia.
    - apply: (@upd_z _ _ _ _ _ _ _ _ _ _ z2); last by apply: upd_le V; lia.
      by move=> i hi; rewrite (_ : (i < o + n1)%N = false) //; lia.
  by rewrite (u_frR U) in h4 *; rewrite //; lia.
Qed.

Record dpost (o n : nat) (mkZ : bool) R A Z (s : fm C * fm C * fm C) : Prop := DP {
  dp_upd : upd o n (o + n) s.1.1 A R s.1.2 (fun k => s.2 k k);
  dp_frR : forall i c, ~~ ((o <= i < o + n) && (i <= c < o + n))%N -> s.1.1 i c = R i c;
  dp_frA : forall i c, ~~ ((i < M) && (o <= c < o + n))%N -> s.1.2 i c = A i c;
  dp_real : forall c, (o <= c < o + n)%N -> s.1.1 c c \is Num.real;
  dp_zok : mkZ -> zok L (sA N s.1.2) s.2 o n;
  dp_frZ : forall k l, ~~ ((o <= k < o + n) && (o <= l < o + n))%N -> s.2 k l = Z k l;
  dp_nz : (exists2 c, (o <= c < o + n)%N & s.1.1 c c = 0) -> cert o n R A }.

Lemma unrefl_step o R A Z : (o < N)%N -> R o o \is Num.real ->
  match hunrefl M (R o o) (fun i => A i o) with
  | Ok (y, x, b) => forall mkZ, dpost o 1 mkZ R A Z (updm R o o y, setcol o M A x, updm Z o o b^*)
  | _ => cert o 1 R A
  end.
Proof.
  move=> ho hr; have := hunreflP M (fun i => A i o) hr; case: hunrefl => [[[y x] b]|e|] //.
    move=> [h1 h2 [h3 h4] h5 h6] mkZ; split=> /=.
    - apply: (@upd1 _ _ _ o _ A R _ (R o o) x b) => //; rewrite /updm ?eqxx // => i c.
      case: (boolP ((i == o) && (c == o))) => [h|//].
      by case/andP: h => /eqP -> /eqP ->.
    - by move=> i c h; rewrite /updm ifN //; lia.
    - by move=> i c h; rewrite /setcol ifN //; lia.
    - by move=> c hc; have -> : c = o by [lia]; rewrite /updm !eqxx.
    - by move=> _; apply: zok1.
    - by move=> k l h; rewrite /updm ifN //; lia.
    - move=> [c hc]; have -> : c = o by lia.
      by rewrite /updm !eqxx /= => e; apply: cert1 => //; apply: h6.
  by move=> [_ h]; apply: cert1.
Qed.

Lemma dn_ext o n e R0 A0 R1 A1 Z Ra Aa : (o + n <= e)%N -> (o + n <= N)%N ->
  upd o n (o + n) R1 A0 R0 A1 (fun k => Z k k) -> zok L (sA N A1) Z o n ->
  (forall i c, (o + n <= c)%N -> R1 i c = R0 i c /\ A1 i c = A0 i c) ->
  (forall k c, (o <= k < o + n)%N -> (o + n <= c < e)%N -> R1 k c = Ra k c - upZW M o n A1 Ra Z k c) ->
  (forall i c, ~~ ((o <= i < o + n) && (o + n <= c < e))%N -> Ra i c = R1 i c) ->
  (forall i c, Aa i c = subA M o n (o + n) e A1 (upZW M o n A1 Ra Z) i c) ->
  upd o n e Ra A0 R0 Aa (fun k => Z k k).
Proof.
  move=> he hN U hz hfr hR hRf hA.
  have hA1 i c : (c < o + n)%N -> Aa i c = A1 i c by move=> h; rewrite hA /subA ifN //; lia.
  apply: (upd_ext he hN U).
  - by move=> i c h; rewrite hA1 // hRf //; lia.
  - move=> c hc; rewrite -hz.
    have -> : ctr (1%:M - Ymx L (sA N A1) o n *m Zmx Z o n *m ctr (Ymx L (sA N A1) o n))
            = 1%:M - Ymx L (sA N A1) o n *m ctr (Zmx Z o n) *m ctr (Ymx L (sA N A1) o n).
      by rewrite ctrB ctr1 !ctrM ctrK mulmxA.
    have -> : colv L (se N Ra A0) c = colv L (se N Ra A1) c.
      apply: colv_ext => i hi; apply: (se_ext hi) => // h1 h2.
      by have [_ ->] := hfr (i - N)%N c ltac:(lia).
    rewrite -(upblockE M Ra A1 Z hN (leqnn _) hc); apply: colv_ext => i hi; apply: (se_ext hi) => // h1 h2.
    rewrite /subR; have [e1 _] := hfr i c ltac:(lia).
    case: ifP => h; first by rewrite -hR // -?e1 //; lia.
    by rewrite hRf ?h // e1.
  - move=> i c hc hi; rewrite hRf; last by rewrite (negbTE hi).
    by have [-> _] := hfr i c hc.
Qed.

Variables (tb tb2 : nat) (stR : stor).
Hypothesis tbP : (0 < tb)%N.
Hypothesis tb2P : (0 < tb2)%N.

Lemma ImZtE Z i j : (i < j)%N -> ImZt Z i j = 0.
Proof.
  by move=> h; rewrite /ImZt ltn_eqF // /zelt leqNgt h /= conjC0 subr0.
Qed.

Lemma dn_trail o n e R0 A0 R1 A1 Z : (o + n <= e)%N -> (o + n <= N)%N ->
  upd o n (o + n) R1 A0 R0 A1 (fun k => Z k k) -> zok L (sA N A1) Z o n ->
  (forall i c, (o + n <= c)%N -> R1 i c = R0 i c /\ A1 i c = A0 i c) ->
  match dnblock tb tb2 stR M o n (o + n) e R1 A1 Z with
  | Ok (Ra, Aa, Za) =>
      [/\ upd o n e Ra A0 R0 Aa (fun k => Z k k),
          forall i c, ~~ ((o <= i < o + n) && (o + n <= c < e))%N -> Ra i c = R1 i c,
          forall i c, ~~ ((i < M) && (o + n <= c < e))%N -> Aa i c = A1 i c
        & forall k c, ~~ ((o <= k < o + n) && (o + n <= c < e))%N -> Za k c = Z k c]
  | Throw x => exists2 c, (o <= c < o + n)%N & R1 c c = 0
  | UB => False
  end.
Proof.
  move=> he hN U hz hfr; rewrite /dnblock.
  set B := subm o (o + n) _; set T := subm o o (ImZt Z); set K := (e - (o + n))%N.
  have := TriLDivEqMLP tbP tb2P CM stR false n K T B; case: TriLDivEqML => [X|x|] //= H; last first.
    case: H => _ [_ [i [hi]]]; rewrite /T /subm /ImZt eqxx /zelt leqnn => h.
    exists (o + i)%N; first lia.
    rewrite (u_diag U); last lia.
    have -> : 1 - Z (o + i)%N (o + i)%N = 0; last by rewrite mul0r.
    by rewrite -(conjCK (1 - _)) cjD cjN conjC1 h conjC0.
  case: H => H _; set Ra := putm _ _ _ _ _ _; set ZW := fun k c => _ + _.
  have fR i c : ~~ ((o <= i < o + n) && (o + n <= c < e))%N -> Ra i c = R1 i c.
    move=> h; rewrite /Ra /putm ifN //; apply: contra h => /andP [-> h2] /=; move: h2; rewrite /K; lia.
  have eW k c : ZW k c = upZW M o n A1 Ra Z k c.
    rewrite /ZW /dnZW /upZW -big_split; apply: eq_big_nat => l hl /=; mring.
  split=> //.
  - apply: (dn_ext he hN U hz hfr) => // [k c hk hc|i c]; last first.
      rewrite /subA; case: ifP => // _; congr (_ - _); apply: eq_big_nat => k hk; by rewrite eW.
    have hk1 : (k - o < n)%N by lia.
    have hc1 : (c - (o + n) < K)%N by rewrite /K; lia.
    have eX l : (l < n)%N -> X l (c - (o + n))%N = Ra (o + l)%N c.
      move=> hl; rewrite /Ra /putm; have -> : ((o <= o + l < o + n) && (o + n <= c < o + n + K))%N by move: hc1; rewrite /K; lia.
      by rewrite addKn.
    have := H _ _ hk1 hc1; rewrite /B /subm.
    have -> : (o + (k - o) = k)%N by lia.
    have -> : (o + n + (c - (o + n)) = c)%N by lia.
    have -> : \sum_(l < n) lower false T (k - o)%N l * X l (c - (o + n))%N
            = Ra k c - \sum_(o <= l < o + n) (zelt Z l k)^* * Ra l c.
      have -> : Ra k c = \sum_(l < n) (if ((k - o)%N == l) then 1 else 0) * Ra (o + l)%N c.
        rewrite (bigD1 (Ordinal hk1)) //= eqxx mul1r big1 ?addr0; last first.
          move=> l hl; have -> : ((k - o)%N == l) = false; last by rewrite mul0r.
          by apply/negbTE; apply: contra hl => /eqP e1; apply/eqP/val_inj.
        by have -> : (o + (k - o) = k)%N by lia.
      rewrite sum_shift -sumrB; apply: eq_bigr => l _; rewrite eX // -mulrBl; congr (_ * _).
      have -> : lower false T (k - o)%N l = ImZt Z (o + (k - o))%N (o + l)%N.
        rewrite /lower /T /subm; case: eqP => // hne; case: ltnP => // h; rewrite ImZtE //; lia.
      rewrite /ImZt; have -> : (o + (k - o) = k)%N by lia.
      by have -> : (k == (o + l)%N) = ((k - o)%N == l) by lia.
    move=> h; have -> : R1 k c = (R1 k c + dnZW M o n A1 Z k c) - dnZW M o n A1 Z k c by rewrite addrK.
    by rewrite -h -eW /ZW opprD addrA addrAC.
  - by move=> i c h; rewrite /subA (negbTE h).
  - by move=> k c h; rewrite /putZ (negbTE h).
Qed.

Lemma RecDnP fuel o n mkZ R A Z : (n < fuel)%N -> (0 < n)%N -> (o + n <= N)%N ->
  (forall c, (o <= c < o + n)%N -> R c c \is Num.real) ->
  match RecDn tb tb2 stR fuel M o n mkZ (R, A, Z) with Ok s => dpost o n mkZ R A Z s | _ => cert o n R A end.
Proof.
  elim: fuel o n mkZ R A Z => // f IH o n mkZ R A Z hf hn hN hr; cbn [RecDn].
  case: eqP => [n1|n1].
    rewrite n1; have := @unrefl_step o R A Z ltac:(lia) ltac:(apply: hr; lia).
    by case: hunrefl => [[[y x] b]|e|] //= H; apply: H.
  case: eqP => [n2|n2].
    rewrite n2 in hN *; have ho : (o < N)%N by lia.
    have := @unrefl_step o R A Z ho ltac:(apply: hr; lia).
    case: hunrefl => [[[y x] b0]|e|] /=; try by apply: cert_le.
    move/(_ true) => P1.
    set R1 := updm R o o y in P1 *; set A1 := setcol o M A x in P1 *; set Z1 := updm Z o o b0^* in P1 *.
    case: (P1) => /= U1 fR1 fA1 rl1 zk1 fZ1 nz1.
    have ez : Z1 o o = b0^* by rewrite /Z1 /updm !eqxx.
    have ezz : zelt Z1 o o = b0^* by rewrite /zelt leqnn ez.
    set RA2 := if b0 != 0 then _ else _.
    have P2 : match RA2 with
              | Ok (R2, A2) => [/\ upd o 1 (o + 2) R2 A R A2 (fun k => Z1 k k),
                    forall i c, ~~ ((i == o) && (c == o.+1))%N -> R2 i c = R1 i c
                  & forall i c, ~~ ((i < M)%N && (c == o.+1)) -> A2 i c = A1 i c]
              | _ => cert o 2 R A end.
      have hfr i c : (o + 1 <= c)%N -> R1 i c = R i c /\ A1 i c = A i c.
        by move=> hc; rewrite fR1 ?fA1 //; lia.
      have hfr2 k c : (o <= k < o + 1)%N -> (o + 1 <= c < o + 2)%N -> k = o /\ c = o.+1 by lia.
      rewrite /RA2; case: (eqVneq b0 0) => /= [eb|nb0].
        split=> //; apply: (@dn_ext o 1 (o + 2) R A R1 A1 Z1 R1 A1 _ _ U1 (zk1 isT) hfr) => //; [lia|lia| |] => i c.
          by move=> hi hc; have [-> ->] := hfr2 i c hi hc; rewrite /upZW addn1 big_nat1 ezz eb !conjC0 mul0r subr0.
        rewrite /subA; case: ifP => // _; rewrite addn1 !big_nat1 /upZW addn1 big_nat1 ezz eb !conjC0 mul0r mulr0 subr0 //.
      rewrite /sdiv; case: (eqVneq (1 - b0) 0) => /= [e1|nb1].
        apply: (@cert_le o 1) => //; apply: nz1; exists o; first lia.
        rewrite (u_diag U1); last lia.
        rewrite ez; have -> : b0 = 1 by apply/eqP; rewrite -subr_eq0 -opprB oppr_eq0 e1.
        by rewrite conjC1 subrr mul0r.
      set q := _ / _; set R2 := updm R1 _ _ _; set A2 := setcol _ _ _ _.
      have eq2 : R2 o o.+1 = q by rewrite /R2 /updm !eqxx.
      have fR2 i c : ~~ ((i == o) && (c == o.+1))%N -> R2 i c = R1 i c by move=> h; rewrite /R2 /updm (negbTE h).
      have fA2 i c : ~~ ((i < M)%N && (c == o.+1)) -> A2 i c = A1 i c by move=> h; rewrite /A2 /setcol andbC (negbTE h).
      have eW : upZW M o 1 A1 R2 Z1 o o.+1 = b0 * (YtA M A1 o o.+1 + q).
        by rewrite /upZW addn1 big_nat1 ezz conjCK eq2.
      split=> //; apply: (@dn_ext o 1 (o + 2) R A R1 A1 Z1 R2 A2 _ _ U1 (zk1 isT) hfr) => //; [lia|lia| | |] => i c.
      - move=> hi hc; have [-> ->] := hfr2 i c hi hc; rewrite eW eq2 /q; exact: dn_alg.
      - by move=> h; apply: fR2; lia.
      - rewrite /subA addn1; case: (boolP (_ && _)) => h; last by apply: fA2; lia.
        have ec : c = o.+1 by lia.
        have hi : (i < M)%N by lia.
        by rewrite ec big_nat1 eW /A2 /setcol hi eqxx /= eq2; congr (_ - _); mring.
    case: RA2 P2 => [[R2 A2]|e|] //= [U2 fR2 fA2].
    have ho1 : (o.+1 < N)%N by lia.
    have e1 : (o + 1 = o.+1)%N by lia.
    have e2 : (o + 2 = o.+1 + 1)%N by lia.
    have r2 : R2 o.+1 o.+1 \is Num.real by rewrite fR2 ?fR1; [apply: hr|..]; lia.
    have := @unrefl_step o.+1 R2 A2 Z1 ho1 r2.
    have cn : cert o.+1 1 R2 A2 -> cert o 2 R A.
      rewrite -e1; apply: (@cert_next o 1 1 (o + 2) R A R2 A2 (fun k => Z1 k k)); [lia|lia|exact: U2].
    case: hunrefl => [[[y1 x1] b1]|e|] /=; try exact: cn.
    move/(_ true) => P3.
    set R3 := updm R2 _ _ _ in P3 *; set A3 := setcol _ _ A2 _ in P3 *; set Z3 := updm Z1 _ _ _ in P3 *.
    case: (P3) => /= U3 fR3 fA3 rl3 zk3 fZ3 nz3.
    set Z4 := if mkZ then _ else _.
    have z4 k l : (k != o) || (l != o.+1) -> Z4 k l = Z3 k l.
      by move=> h; rewrite /Z4; case: (mkZ) => //; rewrite /updm ifN //; lia.
    have d3 : R3 o o = R1 o o by rewrite fR3 ?fR2 //; lia.
    split; rewrite /=.
    - apply: (@upd_back _ _ _ o 1 1 (o + 2) R A R2 A2 _ _ (fun k => Z1 k k)); [lia|lia| |exact: U2|].
        by move=> k hk; rewrite z4 ?fZ3 //=; lia.
      rewrite e1 e2; apply: upd_z U3 => k hk /=; rewrite z4 //; lia.
    - move=> i c h; rewrite fR3; last lia.
      by rewrite fR2 ?fR1 //; lia.
    - move=> i c h; rewrite fA3; last lia.
      by rewrite fA2 ?fA1 //; lia.
    - move=> c hc; case: (eqVneq c o) => [->|hco]; first by rewrite d3; apply: rl1; lia.
      by apply: rl3; lia.
    - move=> hm; apply: (@upZ01P _ _ _ o A3 Z3) => //.
      rewrite /Z4 hm /updm !eqxx /= ; congr (_ * _).
      have -> : Z3 o o = b0^* by rewrite fZ3 ?ez //; lia.
      have -> : Z3 o.+1 o.+1 = b1^* by rewrite /Z3 /updm !eqxx.
      by rewrite rmorphM.
    - move=> k l h; rewrite z4; last lia.
      by rewrite fZ3 ?fZ1 //; lia.
    - move=> [c hc h0]; case: (eqVneq c o) => [eo|hco].
        apply: (@cert_le o 1) => //; apply: nz1; exists o; first lia.
        by rewrite -d3 -eo.
      by apply: cn; apply: nz3; exists c => //; lia.
  set j1 := (n %/ 2)%N; have hj : (0 < j1 < n)%N by rewrite /j1; lia.
  have := IH o j1 true R A Z ltac:(lia) ltac:(lia) ltac:(lia) ltac:(move=> c hc; apply: hr; lia).
  case: RecDn => [[[R1 A1] Z1]|e|]; cbn [bindO]; try by apply: cert_le; lia.
  case=> /= U1 fR1 fA1 rl1 zk1 fZ1 nz1.
  have := @dn_trail o j1 (o + n) R A R1 A1 Z1 ltac:(lia) ltac:(lia) U1 (zk1 isT).
  case: dnblock => [[[R2 A2] Z2]|e|]; cbn [bindO]; last first.
  - by case=> i c hc; rewrite fR1 ?fA1 //; lia.
  - move=> H; apply: (@cert_le o j1); first lia.
    by apply: nz1; apply: H => i c hc; rewrite fR1 ?fA1 //; lia.
  case; first by move=> i c hc; rewrite fR1 ?fA1 //; lia.
  move=> U2 fR2 fA2 fZ2.
  have en : (o + j1 + (n - j1) = o + n)%N by lia.
  have ej : (j1 + (n - j1) = n)%N by lia.
  have cn : cert (o + j1) (n - j1) R2 A2 -> cert o n R A.
    have := @cert_next o j1 (n - j1) (o + n) R A R2 A2 (fun k => Z1 k k); rewrite en ej; apply=> //.
  have hr2 c : (o + j1 <= c < o + j1 + (n - j1))%N -> R2 c c \is Num.real.
    by move=> hc; rewrite fR2 ?fR1; [apply: hr|..]; lia.
  have := IH (o + j1)%N (n - j1)%N mkZ R2 A2 Z2 ltac:(lia) ltac:(lia) ltac:(lia) hr2.
  case: RecDn => [[[R3 A3] Z3]|e|]; cbn [bindO] => //.
  case=> /= U3 fR3 fA3 rl3 zk3 fZ3 nz3.
  set Z4 := if mkZ then _ else _.
  have z4 k l : ~~ ((o <= k < o + j1) && (o + j1 <= l < o + n))%N -> Z4 k l = Z3 k l.
    by move=> h; rewrite /Z4; case: (mkZ) => //; rewrite /upZ3 (negbTE h).
  split; rewrite /=.
  - have := @upd_back _ _ _ o j1 (n - j1) (o + n) R A R2 A2 R3 A3 (fun k => Z1 k k) (fun k => Z4 k k).
    rewrite en ej; apply=> //.
      by move=> k hk; rewrite z4 ?fZ3 /= ?fZ2 //; lia.
    have := U3; rewrite en /=; apply: upd_z => k hk; rewrite z4 //; lia.
  - move=> i c h; rewrite fR3 /=; last lia.
    by rewrite fR2 ?fR1 //; lia.
  - move=> i c h; rewrite fA3 /=; last lia.
    by rewrite fA2 ?fA1 //; lia.
  - move=> c hc; case: (ltnP c (o + j1)) => h; last by apply: rl3; lia.
    rewrite fR3 /=; last lia.
    by rewrite fR2; [apply: rl1|]; lia.
  - move=> hm; rewrite /Z4 hm -{1 2}ej; apply: upZ3P; first lia.
      apply: (zok_ext _ _ (zk1 isT)) => [i k hk hi|k l hk hl] /=.
        rewrite /sA; case: ltnP => // h; rewrite fA3 /=; last lia.
        by rewrite fA2 //; lia.
      by rewrite fZ3 /= ?fZ2 //; lia.
    exact: zk3.
  - by move=> k l h; rewrite z4 ?fZ3 /= ?fZ2 ?fZ1 //; lia.
  - move=> [c hc h0]; case: (ltnP c (o + j1)) => h.
      apply: (@cert_le o j1); first lia.
      apply: nz1; exists c; first lia.
      by rewrite -h0 fR3 ?fR2 //; lia.
    by apply: cn; apply: nz3; exists c => //; lia.
Qed.

(** The first j columns are downdated. *)
Record dbpost (j : nat) R0 A0 R A : Prop := DB {
  db_upd : exists z, upd 0 j N R A0 R0 A z;
  db_real : forall c, (c < N)%N -> R c c \is Num.real;
  db_frR : forall i c, ~~ (i <= c < N)%N -> R i c = R0 i c;
  db_frA : forall i c, ~~ ((i < M) && (c < N))%N -> A i c = A0 i c }.

Lemma BlockDnP nb fuel j R0 A0 R A Z : (0 < nb)%N -> (N - j <= fuel)%N -> (j <= N)%N -> dbpost j R0 A0 R A ->
  match BlockDn nb tb tb2 stR fuel M N j (R, A) Z with Ok s => dbpost N R0 A0 s.1 s.2 | _ => cert 0 N R0 A0 end.
Proof.
  move=> hb; elim: fuel j R A Z => [|f IH] j R A Z hf hj B.
    rewrite /= ltnNge (_ : (N <= j)%N) //=; last lia.
    by have <- : j = N by lia.
  cbn [BlockDn]; case: (ltnP j N) => hjN; last by have <- : j = N by lia.
  set j2 := minn N (j + nb); have hj2 : (j < j2 <= N)%N by rewrite /j2; lia.
  have [[z U] rl fR fA] := B.
  have cn n : (j + n <= N)%N -> cert j n R A -> cert 0 N R0 A0.
    move=> hn h; apply: (@cert_le 0 (j + n)) => //.
    by apply: (@cert_next 0 j n N R0 A0 R A z) => //; rewrite add0n.
  have en : (j + (j2 - j) = j2)%N by lia.
  have := @RecDnP (j2 - j).+1 j (j2 - j) (j2 < N)%N R A Z ltac:(lia) ltac:(lia) ltac:(lia) ltac:(move=> c hc; apply: rl; lia).
  case: RecDn => [[[R1 A1] Z1]|e|]; cbn [bindO]; try by apply: cn; lia.
  case=> /= U1 fR1 fA1 rl1 zk1 fZ1 nz1; rewrite en in U1 fR1 fA1 rl1 fZ1.
  set RA2 := if (j2 < N)%N then _ else _.
  have P2 : match RA2 with
            | Ok (R2, A2) => [/\ upd j (j2 - j) N R2 A R A2 (fun k => Z1 k k),
               forall i c, ~~ ((j <= i < j2) && (i <= c < N))%N -> R2 i c = R i c,
               forall i c, ~~ ((i < M) && (j <= c < N))%N -> A2 i c = A i c
             & forall c, (c < N)%N -> R2 c c = R1 c c]
            | _ => cert 0 N R0 A0 end.
    rewrite /RA2; case: (ltnP j2 N) => h2 /=; last first.
      have e2 : j2 = N by lia.
      by move: U1 fR1 fA1; rewrite e2.
    have hfr i c : (j + (j2 - j) <= c)%N -> R1 i c = R i c /\ A1 i c = A i c.
      by move=> hc; rewrite fR1 ?fA1 //; lia.
    have := @dn_trail j (j2 - j) N R A R1 A1 Z1; rewrite en => /(_ ltac:(lia) ltac:(lia) U1 (zk1 h2)).
    rewrite -{1}en => /(_ hfr); case: dnblock => [[[R2 A2] Z2]|e|] //=; last first.
      by move=> H; apply: (cn (j2 - j)%N); [lia|apply: nz1; rewrite en].
    move=> [U2 fR2 fA2 _]; split=> //.
    - by move=> i c h; rewrite fR2 ?fR1 //; lia.
    - by move=> i c h; rewrite fA2 ?fA1 //; lia.
    - by move=> c hc; rewrite fR2 //; lia.
  case: RA2 P2 => [[R2 A2]|e|] //= [U2 fR2 fA2 d2].
  apply: IH; [lia|lia|].
  split.
  - exists (fun k => if (k < j)%N then z k else Z1 k k).
    have := @upd_back _ M N 0 j (j2 - j) N R0 A0 R A R2 A2 z (fun k => if (k < j)%N then z k else Z1 k k).
    rewrite add0n en; apply=> //; [lia|lia| |].
      by move=> k hk; rewrite (_ : (k < j)%N) //; lia.
    by apply: upd_z U2 => k hk; rewrite ltnNge (_ : (j <= k)%N) //; lia.
  - move=> c hc; rewrite d2 //; case: (boolP (j <= c < j2)%N) => h; first by apply: rl1; lia.
    by rewrite fR1; [apply: rl|lia].
  - by move=> i c h; rewrite fR2 ?fR //; lia.
  - by move=> i c h; rewrite fA2 ?fA //; lia.
Qed.

Lemma QR_DowndateP nb R A Z0 : (0 < nb)%N -> (forall c, (c < N)%N -> R c c \is Num.real) ->
  match QR_Downdate nb tb tb2 stR M N R A Z0 with Ok s => dbpost N R A s.1 s.2 | _ => cert 0 N R A end.
Proof.
  move=> hb hr; have B0 : dbpost 0 R A R A by split=> //; exists (fun _ => 0); exact: upd0.
  rewrite /QR_Downdate; case: (ltnP 0 N) => hN; last first.
    have H j : j = 0%N -> dbpost j R A R A by move=> ->.
    by apply: H; lia.
  case: ifP => _.
    by apply: (BlockDnP Z0 hb _ _ B0); lia.
  have := @RecDnP N.+1 0 N false R A Z0 ltac:(lia) ltac:(lia) ltac:(lia) ltac:(move=> c hc; apply: hr; lia).
  case: RecDn => [[[R1 A1] Z1]|e|] //=; case=> /= U1 fR1 fA1 rl1 zk1 fZ1 nz1.
  split.
  - by exists (fun k => Z1 k k).
  - by move=> c hc; apply: rl1.
  - by move=> i c h; apply: fR1; lia.
  - by move=> i c h; apply: fA1; lia.
Qed.
End Down.
