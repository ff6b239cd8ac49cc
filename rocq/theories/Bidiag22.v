(** The 2 x 2 step of the bidiagonal QR iteration, ReduceBidiagonal22. *)
From Coq Require Import Ring Field.
From Verif Require Import Base FMat RowPerm LUDiv RingTac Cplx Givens Claims_Givens QRProofs BidiagProofs BidiagQR BidiagQRProofs.
From mathcomp Require Import all_ssreflect all_algebra zify.
Set Implicit Arguments. Unset Strict Implicit. Unset Printing Implicit Defensive.
Import GRing.Theory Num.Theory Order.Theory.
Local Open Scope ring_scope.

Section Proofs.
Variable C : numClosedFieldType.
Add Field Cf : (mc_ft C).
Ltac mfield := mcnorm C; field.
Ltac mring := mcnorm C; ring.
Ltac nz := repeat split; exact/eqP.
Implicit Types (c s x y u v w d b z : C).

Lemma sq_ge0 x : x \is Num.real -> 0 <= x * x.
Proof. by move=> h; rewrite -expr2 real_exprn_even_ge0. Qed.
Lemma sq_gt0 x : x \is Num.real -> x != 0 -> 0 < x * x.
Proof. by move=> h nx; rewrite lt_def mulf_neq0 //= sq_ge0. Qed.
Lemma sqrtP x : 0 <= x -> [/\ 0 <= sqrtC x, sqrtC x \is Num.real & sqrtC x * sqrtC x = x].
Proof. by move=> h; rewrite sqrtC_ge0 ger0_real ?sqrtC_ge0 // -expr2 sqrtCK. Qed.

(** Normalizing (c,s) with the sign of c. *)
Lemma nrmP c s : c \is Num.real -> s \is Num.real -> s != 0 ->
  let n := nrm1 c s in
  [/\ n != 0, n \is Num.real, n * n = s * s + c * c & 0 <= c / n].
Proof.
  move=> hc hs ns; have h : 0 < s * s + c * c by rewrite ltr_paddr ?sq_ge0 ?sq_gt0.
  have [g0 gr gq] := sqrtP (ltW h); rewrite /nrm1; set n0 := sqrtC _ in g0 gr gq *.
  have n00 : n0 != 0 by rewrite sqrtC_eq0 gt_eqF.
  have p0 : 0 < n0 by rewrite lt_def n00.
  case: (real_ltP hc (real0 _)) => hc0.
    by rewrite oppr_eq0 rpredN mulrNN invrN mulrN -mulNr divr_ge0 ?oppr_ge0 // ltW.
  by rewrite divr_ge0.
Qed.
Lemma nrm_grt c s n : c \is Num.real -> s \is Num.real -> s != 0 -> n \is Num.real -> n != 0 ->
  n * n = s * s + c * c -> grt (c / n) (s / n).
Proof.
  move=> hc hs ns hn nn e; split; rewrite ?rpred_div //; last first.
    by move=> /eqP; rewrite mulf_eq0 invr_eq0 (negbTE ns) (negbTE nn).
  have -> : c / n * (c / n) + s / n * (s / n) = (s * s + c * c) / (n * n) by mfield; nz.
  by rewrite -e divff // mulf_neq0.
Qed.
(** c = 1 - s^2/(1+c), the form used for small s. *)
Lemma small_c c s : 0 <= c -> c * c + s * s = 1 -> 1 - s * s / (1 + c) = c.
Proof.
  move=> h0 h1; have n1 : 1 + c != 0 by rewrite gt_eqF // ltr_paddr ?ltr01.
  have -> : s * s = 1 - c * c by rewrite -h1 addrAC subrr add0r.
  by mfield; nz.
Qed.

(** The conditions on the two rotations of u, w, 0, v: the lower left element of the
    product is zero, and the upper right one too when [ex]. *)
Definition r22 (u v w : C) (r : C * C * C * C * bool) : Prop :=
  let: (c1, s1, c2, s2, ex) := r in
  [/\ grt c1 s1, grt c2 s2, s1 * (s2 * w - c2 * u) = c1 * (s2 * v) &
      ex -> [/\ c1 != 0, c2 != 0 & c1 * (s2 * u + c2 * w) + s1 * (c2 * v) = 0]].

Lemma fin22 u v w c2 s2 (ex : bool) : v != 0 -> s2 != 0 -> (ex -> c2 != 0) -> u \is Num.real -> v \is Num.real -> w \is Num.real ->
  grt c2 s2 -> (ex -> u * w * (c2 * c2 - s2 * s2) = (v * v - u * u + w * w) * (s2 * c2)) ->
  let s1 := s2 * v in let c1 := s2 * w - c2 * u in
  let n := nrm1 c1 s1 in
  [/\ r22 u v w (c1 / n, s1 / n, c2, s2, ex), 0 <= c1 / n & n != 0].
Proof.
  move=> nv ns nc ru rv rw g q s1 c1 n; have [rc rs _ _] := g.
  have rs1 : s1 \is Num.real by rewrite rpredM.
  have ns1 : s1 != 0 by rewrite mulf_neq0.
  have rc1 : c1 \is Num.real by rewrite rpredB ?rpredM.
  have [nn rn en hc] := nrmP rc1 rs1 ns1; rewrite -/n in nn rn en hc; split=> //.
  have ur : ex -> c1 * (s2 * u + c2 * w) + s1 * (c2 * v) = 0.
    move/q; rewrite /c1 /s1 => e.
    have -> : (s2 * w - c2 * u) * (s2 * u + c2 * w) + s2 * v * (c2 * v) =
       (v * v - u * u + w * w) * (s2 * c2) - u * w * (c2 * c2 - s2 * s2) by mring.
    by rewrite e subrr.
  split=> //; first exact: nrm_grt.
    by rewrite -/c1 -/s1; mfield; nz.
  move=> hex; split; [|exact: nc|].
    rewrite mulf_neq0 ?invr_eq0 //; apply/eqP => e; move: (ur hex); rewrite e mul0r add0r => /eqP.
    by rewrite mulf_eq0 (negbTE ns1) mulf_eq0 (negbTE (nc hex)) (negbTE nv).
  have -> : c1 / n * (s2 * u + c2 * w) + s1 / n * (c2 * v) = (c1 * (s2 * u + c2 * w) + s1 * (c2 * v)) / n by mfield; nz.
  by rewrite ur // mul0r.
Qed.

(** The first branch: the rotation of the columns solves the quadratic equation. *)
Lemma b1_c2 u v w d : u \is Num.real -> v \is Num.real -> w \is Num.real -> u != 0 -> w != 0 ->
  d = ((v - u) * (v + u) + w * w) / 2%:R -> d != 0 -> d \is Num.real ->
  let b := u * w / `|d| in
  let z := sqrtC (1 + b * b) in
  let s2 := b / sqrtC (2%:R * z * (z + 1)) in
  let s2 := if d < 0 then - s2 else s2 in
  let c2 := sqrtC (1 - s2 * s2) in
  [/\ [/\ z * z = 1 + b * b, 1 < z & z \is Num.real], s2 != 0 /\ b * b * (d * d) = u * u * (w * w),
      s2 * s2 = (z - 1) / (2%:R * z) /\ c2 * c2 = (z + 1) / (2%:R * z), 0 < c2 /\ grt c2 s2 &
      u * w * (c2 * c2 - s2 * s2) = (v * v - u * u + w * w) * (s2 * c2)].
Proof.
  move=> ru rv rw nu nw ed nd rd b z t s2 c2.
  have two0 : 2%:R != 0 :> C by rewrite pnatr_eq0.
  have nad : `|d| != 0 by rewrite normr_eq0.
  have rb : b \is Num.real by rewrite rpred_div ?rpredM ?normr_real.
  have nb : b != 0 by rewrite mulf_neq0 ?invr_eq0 // mulf_neq0.
  have hb := sq_gt0 rb nb.
  have h1 : 0 <= 1 + b * b by rewrite addr_ge0 ?ler01 // ltW.
  have [z0 rz ez] := sqrtP h1; rewrite -/z in z0 rz ez.
  have z1 : 1 < z.
    rewrite -[1]sqrtC1 /z ltr_sqrtC ?nnegrE ?ler01 //.
    by rewrite ltr_addl.
  have zp : 0 < z by apply: lt_trans ltr01 z1.
  have nz0 : z != 0 by rewrite gt_eqF.
  have z1p : 0 < z + 1 by rewrite addr_gt0 ?ltr01.
  have nz1 : z + 1 != 0 by rewrite gt_eqF.
  have hk : 0 < 2%:R * z * (z + 1) by rewrite !mulr_gt0 ?ltr0n.
  have [k0 rk ek] := sqrtP (ltW hk); set k := sqrtC _ in k0 rk ek.
  have nk : k != 0 by rewrite sqrtC_eq0 gt_eqF.
  have e2 : s2 * s2 = (z - 1) / (2%:R * z).
    have -> : s2 * s2 = b * b / (k * k).
      by rewrite /s2 /t -/k; case: ifP => _; mfield; nz.
    have -> : b * b = z * z - 1 by rewrite ez addrAC subrr add0r.
    by rewrite ek; mfield; nz.
  have ec : 1 - s2 * s2 = (z + 1) / (2%:R * z) by rewrite e2; mfield; nz.
  have hc : 0 < 1 - s2 * s2 by rewrite ec divr_gt0 // mulr_gt0 ?ltr0n.
  have [c0 rc ec2] := sqrtP (ltW hc); rewrite -/c2 in c0 rc ec2.
  have cp : 0 < c2 by rewrite lt_def c0 andbT sqrtC_eq0 gt_eqF.
  have nt : t != 0 by rewrite mulf_neq0 ?invr_eq0.
  have ns : s2 != 0 by rewrite /s2; case: ifP; rewrite ?oppr_eq0.
  have rt : t \is Num.real by rewrite rpred_div.
  have rs : s2 \is Num.real by rewrite /s2; case: ifP; rewrite ?rpredN.
  split=> //.
  - split=> //; have -> : d * d = `|d| * `|d|.
      by rewrite -normrM ger0_norm // sq_ge0.
    by rewrite /b; mfield; nz.
  - by split=> //; rewrite ec2.
  - split=> //; split=> //; first by rewrite ec2 subrK.
    by move/eqP; rewrite (negbTE ns).
  have sc : s2 * c2 * (2%:R * z) = if d < 0 then - b else b.
    have ckz : c2 * k = z + 1.
      have : c2 * k == z + 1; last by move/eqP.
      rewrite -(@eqr_expn2 _ 2) ?mulr_ge0 ?(ltW z1p) // !expr2.
      have -> : c2 * k * (c2 * k) = (c2 * c2) * (k * k) by mring.
      by rewrite ec2 ec ek; apply/eqP; mfield; nz.
    have tE : t * (z + 1) = b * c2.
      by rewrite /t -/k -ckz; mfield; nz.
    have tc : t * c2 * (2%:R * z) = b.
      have -> : t * c2 * (2%:R * z) = t * (z + 1) * c2 * (2%:R * z) / (z + 1) by mfield; nz.
      rewrite tE; have -> : b * c2 * c2 * (2%:R * z) / (z + 1) = b * (c2 * c2) * (2%:R * z) / (z + 1) by mring.
      by rewrite ec2 ec; mfield; nz.
    by rewrite /s2; case: ifP => _ //; rewrite -tc; mring.
  have e1 : c2 * c2 - s2 * s2 = z^-1 by rewrite ec2 ec e2; mfield; nz.
  rewrite e1.
  have -> : v * v - u * u + w * w = 2%:R * d by rewrite ed; mfield; nz.
  have -> : 2%:R * d * (s2 * c2) = d * (s2 * c2 * (2%:R * z)) / z by mfield; nz.
  have duw : d * (if d < 0 then - b else b) = u * w.
    rewrite /b; case: (real_ltP rd (real0 _)) => hd; first by rewrite ltr0_norm // invrN; mfield; nz.
    by rewrite ger0_norm //; mfield; nz.
  by rewrite sc duw.
Qed.
(** The formula for small c1 gives the same value. *)
Lemma b1_c1 u v w d b z c2 s2 : u != 0 -> v != 0 -> w != 0 -> d != 0 ->
  v \is Num.real -> w \is Num.real -> c2 \is Num.real -> s2 != 0 ->
  d = ((v - u) * (v + u) + w * w) / 2%:R ->
  z * z = 1 + b * b -> 0 < z -> b * b * (d * d) = u * u * (w * w) ->
  s2 * s2 = (z - 1) / (2%:R * z) -> c2 * c2 = (z + 1) / (2%:R * z) -> c2 != 0 ->
  u * w * (c2 * c2 - s2 * s2) = (v * v - u * u + w * w) * (s2 * c2) ->
  let W := ((u - v) * (u + v) - d * b * b * (1 + 1 / (1 + z))) / (w * w) in
  u * u / d * (w * w / d) * (u * u + (u - v) * (u + v) + 2%:R * W * d) /
    ((s2 * w + c2 * u) * (2%:R * z * (1 + z))) = s2 * w - c2 * u.
Proof.
  move=> nu nv nw nd rv rw rc ns ed ez zp eb es ec nc q W.
  have two0 : 2%:R != 0 :> C by rewrite pnatr_eq0.
  have nz0 : z != 0 by rewrite gt_eqF.
  have nz1 : 1 + z != 0 by rewrite gt_eqF // addr_gt0 ?ltr01.
  have n1 : s2 * w + c2 * u != 0.
    apply/eqP => h; have e : c2 * u = - (s2 * w) by apply/eqP; rewrite -addr_eq0 addrC h.
    have e1 : c2 * c2 * (u * u) = s2 * s2 * (w * w).
      have -> : c2 * c2 * (u * u) = (c2 * u) * (c2 * u) by mring.
      by rewrite e; mring.
    have q' : - (s2 * w * w * (c2 * c2 - s2 * s2)) = s2 * (c2 * c2 * (v * v) - s2 * s2 * (w * w) + c2 * c2 * (w * w)).
      have -> : - (s2 * w * w * (c2 * c2 - s2 * s2)) = (c2 * u) * w * (c2 * c2 - s2 * s2) by rewrite e; mring.
      have -> : c2 * u * w * (c2 * c2 - s2 * s2) = c2 * (u * w * (c2 * c2 - s2 * s2)) by mring.
      by rewrite q -e1; mring.
    have e2 : c2 * c2 * (v * v) = - (2%:R * (w * w) * (c2 * c2 - s2 * s2)).
      apply: (mulfI ns); have -> : s2 * (c2 * c2 * (v * v)) =
        s2 * (c2 * c2 * (v * v) - s2 * s2 * (w * w) + c2 * c2 * (w * w)) - s2 * w * w * (c2 * c2 - s2 * s2) by mring.
      by rewrite -q'; mring.
    have ez1 : c2 * c2 - s2 * s2 = z^-1 by rewrite es ec; mfield; nz.
    have h1 : 0 < c2 * c2 * (v * v) by rewrite mulr_gt0 ?sq_gt0.
    have h2 : 0 <= 2%:R * (w * w) * z^-1 by apply: mulr_ge0; [apply: mulr_ge0; [exact: ler0n|exact: sq_ge0]|rewrite invr_ge0 ltW].
    by move: h1; rewrite e2 ez1 oppr_gt0 => /(le_lt_trans h2); rewrite ltxx.
  have dE : 2%:R * d = v * v - u * u + w * w by rewrite ed; mfield; nz.
  have WE : W * (w * w) = w * w - 2%:R * d - d * (z * z + z - 2%:R).
    rewrite /W divfK ?mulf_neq0 //.
    have -> : d * b * b * (1 + 1 / (1 + z)) = d * (b * b) * (1 + 1 / (1 + z)) by mring.
    have -> : b * b = z * z - 1 by rewrite ez addrAC subrr add0r.
    have -> : (u - v) * (u + v) = w * w - 2%:R * d by rewrite dE; mring.
    by mfield; nz.
  have uw : u * u * (w * w) = (z * z - 1) * (d * d).
    by rewrite -eb ez addrAC subrr add0r.
  have num : u * u * (w * w) * (u * u + (u - v) * (u + v) + 2%:R * W * d) =
      (s2 * w - c2 * u) * (s2 * w + c2 * u) * (2%:R * z * (1 + z)) * (d * d).
    have -> : (s2 * w - c2 * u) * (s2 * w + c2 * u) = s2 * s2 * (w * w) - c2 * c2 * (u * u) by mring.
    have -> : (s2 * s2 * (w * w) - c2 * c2 * (u * u)) * (2%:R * z * (1 + z)) * (d * d) =
       (z * z - 1) * (d * d) * (w * w) - (z + 1) * (z + 1) * (u * u) * (d * d) by rewrite es ec; mfield; nz.
    rewrite -uw.
    have -> : u * u * (w * w) * (u * u + (u - v) * (u + v) + 2%:R * W * d) =
      u * u * ((w * w) * (u * u + (u - v) * (u + v)) + 2%:R * d * (W * (w * w))) by mring.
    rewrite WE.
    have -> : u * u + (u - v) * (u + v) = u * u + w * w - 2%:R * d by rewrite dE; mring.
    have -> : w * w * (u * u + w * w - 2%:R * d) + 2%:R * d * (w * w - 2%:R * d - d * (z * z + z - 2%:R)) =
      u * u * (w * w) + w * w * (w * w) - 2%:R * (d * d) * (z * z + z) by mring.
    by rewrite {1}uw; mring.
  have -> : u * u / d * (w * w / d) * (u * u + (u - v) * (u + v) + 2%:R * W * d) /
    ((s2 * w + c2 * u) * (2%:R * z * (1 + z))) =
    u * u * (w * w) * (u * u + (u - v) * (u + v) + 2%:R * W * d) / ((s2 * w + c2 * u) * (2%:R * z * (1 + z)) * (d * d)).
    by move: (u * u + (u - v) * (u + v) + 2%:R * W * d) => T; move: (s2 * w + c2 * u) n1 => Y n1; mfield; nz.
  rewrite num; move: (s2 * w + c2 * u) n1 => Y n1; move: (s2 * w - c2 * u) => Y'; mfield; nz.
Qed.

(** The second branch: one Newton step for the tangent; any rotation will do, but it must
    not come out as c = -1, s = 0. *)
Lemma b2_c2 (d b f a : C) : b != 0 -> b \is Num.real -> f \is Num.real -> d \is Num.real -> 0 <= a ->
  2%:R * d = f * f - 1 + b * b ->
  let s := if d < 0 then - b else b in
  let c := a + sqrtC (d * d + b * b) in
  let n := sqrtC (s * s + c * c) in
  let s := s / n in
  let c := c / n in
  let t := s / c in
  let dt := (b - t * (b * (t + b) - (1 - f) * (1 + f))) / (b * (2%:R * t + b) - (1 - f) * (1 + f)) in
  let dt := dt * (c * c) in
  let s2 := s + c * dt in
  let c2 := c - s * dt in
  let n2 := sqrtC (s2 * s2 + c2 * c2) in
  grt (c2 / n2) (s2 / n2) /\ s2 / n2 != 0.
Proof.
  move=> nb rb rf rd a0 ed s0 c0 n s c t dt1 dt s2 c2 n2.
  have two0 : 2%:R != 0 :> C by rewrite pnatr_eq0.
  have hq : 0 < d * d + b * b by rewrite ltr_paddl ?sq_ge0 ?sq_gt0.
  have [q0 rq eq] := sqrtP (ltW hq); set q := sqrtC _ in q0 rq eq.
  have qp : 0 < q by rewrite lt_def q0 andbT sqrtC_eq0 gt_eqF.
  have cp : 0 < c0 by rewrite ltr_paddl.
  have rc0 : c0 \is Num.real by exact: gtr0_real.
  have rs0 : s0 \is Num.real by rewrite /s0; case: ifP; rewrite ?rpredN.
  have ns0 : s0 != 0 by rewrite /s0; case: ifP; rewrite ?oppr_eq0.
  have hn : 0 < s0 * s0 + c0 * c0 by rewrite addr_gt0 ?sq_gt0 // gt_eqF.
  have [n0 rn en] := sqrtP (ltW hn); rewrite -/n in n0 rn en.
  have np : 0 < n by rewrite lt_def n0 andbT sqrtC_eq0 gt_eqF.
  have nn : n != 0 by rewrite gt_eqF.
  have nc0 : c0 != 0 by rewrite gt_eqF.
  have cgt : 0 < c by rewrite divr_gt0.
  have nc : c != 0 by rewrite gt_eqF.
  have [rc rs cs _] := nrm_grt rc0 rs0 ns0 rn nn en; rewrite -/c -/s in rc rs cs.
  have tE : t = s0 / c0 by rewrite /t /s /c; mfield; nz.
  have st : s = t * c by rewrite /t divfK.
  have rt : t \is Num.real by rewrite rpred_div.
  have denE : b * (2%:R * t + b) - (1 - f) * (1 + f) = 2%:R * (d + b * t).
    have -> : 2%:R * (d + b * t) = 2%:R * d + 2%:R * (b * t) by mring.
    by rewrite ed; mring.
  have [k [kp ek]] : exists k, 0 < k /\ b * t / (2%:R * (d + b * t)) = k.
    exists (b * t / (2%:R * (d + b * t))); split=> //; rewrite tE /s0.
    have bb := sq_gt0 rb nb.
    case: (real_ltP rd (real0 _)) => hd.
      have -> : b * (- b / c0) = - (b * b / c0) by mring.
      have h : 0 < b * b / c0 by rewrite divr_gt0.
      rewrite nmulr_rgt0 ?oppr_lt0 // invr_lt0 pmulr_rlt0 ?ltr0n // subr_lt0.
      exact: lt_trans hd h.
    have h : 0 < b * (b / c0) by rewrite mulrA divr_gt0.
    by rewrite divr_gt0 // mulr_gt0 ?ltr0n // ltr_paddl.
  have nden : 2%:R * (d + b * t) != 0.
    by apply/eqP => e; move: kp; rewrite -ek e invr0 mulr0 ltxx.
  have tdt : t * (t + dt1) = k * (1 + t * t).
    rewrite -ek /dt1 denE.
    have -> : b - t * (b * (t + b) - (1 - f) * (1 + f)) = b - b * t * t - t * (2%:R * d) by rewrite ed; mring.
    have nY : d + b * t != 0 by apply/eqP => e; move: nden; rewrite e mulr0 eqxx.
    by mfield; nz.
  have ns2 : s2 != 0.
    apply/eqP => e; have : 0 < s * s2; last by rewrite e mulr0 ltxx.
    have -> : s * s2 = c * c * (t * t * (1 - c * c) + c * c * (t * (t + dt1))).
      by rewrite /s2 /dt st; mring.
    rewrite tdt; apply: mulr_gt0; first exact: sq_gt0.
    apply: ltr_paddl; first by rewrite mulr_ge0 ?sq_ge0 // -cs addrAC subrr add0r sq_ge0.
    by rewrite mulr_gt0 ?sq_gt0 // mulr_gt0 // ltr_paddr ?sq_ge0 ?ltr01.
  have rden : b * (2%:R * t + b) - (1 - f) * (1 + f) \is Num.real.
    by rewrite denE rpredM ?realn // rpredD // rpredM.
  have rdt1 : dt1 \is Num.real.
    rewrite rpred_div //.
    have -> : b - t * (b * (t + b) - (1 - f) * (1 + f)) = b - b * t * t - t * (2%:R * d) by rewrite ed; mring.
    have r1 : b * t * t \is Num.real by apply: rpredM => //; apply: rpredM.
    have r2 : t * (2%:R * d) \is Num.real by apply: rpredM; [exact: rt|apply: rpredM => //; exact: realn].
    by apply: rpredB r2; apply: rpredB r1.
  have rdt : dt \is Num.real by rewrite rpredM // rpredM.
  have rs2 : s2 \is Num.real by rewrite rpredD // rpredM.
  have rc2 : c2 \is Num.real by rewrite rpredB // rpredM.
  have hn2 : 0 < s2 * s2 + c2 * c2 by rewrite ltr_paddr ?sq_ge0 ?sq_gt0.
  have [n20 rn2 en2] := sqrtP (ltW hn2); rewrite -/n2 in n20 rn2 en2.
  have nn2 : n2 != 0 by rewrite sqrtC_eq0 gt_eqF.
  by split; [exact: nrm_grt|rewrite mulf_neq0 ?invr_eq0].
Qed.

(** The rotations, for the elements as given. *)
Lemma max2P x y : x \is Num.real -> y \is Num.real -> x <= max2 x y /\ y <= max2 x y /\ max2 x y \is Num.real.
Proof. by move=> hx hy; rewrite /max2; case: (real_ltP hx hy) => h; do !split=> //; exact: ltW. Qed.
Lemma r22_scale (k : C) u v w r : k != 0 -> r22 (u / k) (v / k) (w / k) r -> r22 u v w r.
Proof.
  move=> nk; case: r => [[[[c1 s1] c2] s2] ex] [g1 g2 e h]; split=> //.
    have -> : s1 * (s2 * w - c2 * u) = (s1 * (s2 * (w / k) - c2 * (u / k))) * k by mfield; nz.
    by rewrite e; mfield; nz.
  move/h => [n1 n2 h3]; split=> //.
  have -> : c1 * (s2 * u + c2 * w) + s1 * (c2 * v) = (c1 * (s2 * (u / k) + c2 * (w / k)) + s1 * (c2 * (v / k))) * k by mfield; nz.
  by rewrite h3 mul0r.
Qed.
Lemma smallcE c s : 0 <= c -> c * c + s * s = 1 -> smallc c s = c.
Proof. by move=> h0 h1; rewrite /smallc; case: ifP => // _; exact: small_c. Qed.
Lemma big22P u v w d ex : u \is Num.real -> v \is Num.real -> w \is Num.real -> u != 0 -> v != 0 -> w != 0 ->
  d = ((v - u) * (v + u) + w * w) / 2%:R -> d != 0 -> d \is Num.real -> r22 u v w (big22 u v w d ex).
Proof.
  move=> ru rv rw nu nv nw ed nd rd; rewrite /big22.
  have [] := b1_c2 ru rv rw nu nw ed nd rd.
  rewrite -/(b22 u w d) -/(z22 u w d) -/(s22 u w d); move: (s22 u w d) => s2; set c2 := sqrtC _.
  case=> ez z1 rz [ns eb] [es ec] [cp g] q; have [_ rs ec2 _] := g.
  have -> : c22 s2 = c2 by apply: smallcE; rewrite ?(ltW cp).
  have nc : c2 != 0 by rewrite gt_eqF.
  have zp : 0 < z22 u w d by apply: lt_trans ltr01 z1.
  have rc : c2 \is Num.real by exact: gtr0_real.
  have e1 := b1_c1 nu nv nw nd rv rw rc ns ed ez zp eb es ec nc q.
  have -> : c21 u v w d c2 s2 = s2 * w - c2 * u by rewrite /c21; case: ifP => // _; exact: e1.
  have [r c10 nn] := @fin22 u v w c2 s2 ex nv ns (fun=> nc) ru rv rw g (fun=> q).
  have [[_ rs1 e3 _] _ _ _] := r.
  by rewrite (smallcE c10 e3).
Qed.
Lemma sml22P u v w d : u \is Num.real -> v \is Num.real -> w \is Num.real -> u != 0 -> v != 0 -> w != 0 ->
  d = ((v - u) * (v + u) + w * w) / 2%:R -> d \is Num.real -> r22 u v w (sml22 u v w d).
Proof.
  move=> ru rv rw nu nv nw ed rd; rewrite /sml22; set b := w / u; set f := v / u; set d' := d / (u * u).
  have two0 : 2%:R != 0 :> C by rewrite pnatr_eq0.
  have nb : b != 0 by rewrite mulf_neq0 ?invr_eq0.
  have nf : f != 0 by rewrite mulf_neq0 ?invr_eq0.
  have rb : b \is Num.real by rewrite rpred_div.
  have rf : f \is Num.real by rewrite rpred_div.
  have rd' : d' \is Num.real by rewrite rpred_div // rpredM.
  have e : 2%:R * d' = f * f - 1 + b * b by rewrite /d' ed /f /b; mfield; nz.
  have : grt (newt22 b f (first22 b d' `|d|).1 (first22 b d' `|d|).2).1 (newt22 b f (first22 b d' `|d|).1 (first22 b d' `|d|).2).2 /\
         (newt22 b f (first22 b d' `|d|).1 (first22 b d' `|d|).2).2 != 0 by exact: b2_c2 nb rb rf rd' (normr_ge0 d) e.
  case: (newt22 _ _ _ _) => c2 s2; cbn [fst snd]; case=> g ns.
  have nex : false -> c2 != 0 by [].
  have qex : false -> 1 * b * (c2 * c2 - s2 * s2) = (f * f - 1 * 1 + b * b) * (s2 * c2) by [].
  have [r _ _] := @fin22 1 f b c2 s2 false nf ns nex (real1 _) rf rb g qex.
  rewrite mulr1 in r; apply: (r22_scale nu); rewrite divff //.
Qed.
Lemma rot22P u v w : u \is Num.real -> v \is Num.real -> w \is Num.real -> u != 0 -> v != 0 -> w != 0 ->
  r22 u v w (rot22 u v w).
Proof.
  move=> ru0 rv0 rw0 nu0 nv0 nw0; rewrite /rot22; set k := max2 _ _.
  have [h1 [h2 h3]] := max2P (normr_real v) (normr_real w).
  have [h4 [h5 h6]] := max2P h3 (normr_real u); rewrite -/k in h4 h5 h6.
  have kp : 0 < k by apply: lt_le_trans h5; rewrite normr_gt0.
  have nk : k != 0 by rewrite gt_eqF.
  apply: (r22_scale nk).
  have ru : u / k \is Num.real by rewrite rpred_div.
  have rv : v / k \is Num.real by rewrite rpred_div.
  have rw : w / k \is Num.real by rewrite rpred_div.
  have nu : u / k != 0 by rewrite mulf_neq0 ?invr_eq0.
  have nv : v / k != 0 by rewrite mulf_neq0 ?invr_eq0.
  have nw : w / k != 0 by rewrite mulf_neq0 ?invr_eq0.
  move: (u / k) (v / k) (w / k) ru rv rw nu nv nw => u' v' w' ru rv rw nu nv nw.
  rewrite /scl22; set ex := ~~ _; set d := _ / 2%:R.
  have rd : d \is Num.real.
    apply: rpred_div; last exact: realn.
    by apply: rpredD; apply: rpredM => //; [apply: rpredB|apply: rpredD].
  case: ifP => hd; last by apply: sml22P.
  apply: big22P => //; apply/eqP => e; move: hd; rewrite e normr0 /tenth => hd.
  have h : 0 < 10%:R^-1 :> C by rewrite invr_gt0 ltr0n.
  by move: (lt_trans h hd); rewrite ltxx.
Qed.
End Proofs.
