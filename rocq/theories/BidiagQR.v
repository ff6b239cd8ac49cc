(** The singular value decomposition of a bidiagonal matrix, in exact arithmetic and without
    LAPACK: src/TMV_SVDecompose_QR.cpp, src/TMV_SVDecompose.cpp:51-235 and the part of
    src/TMV_SVDecompose_DC.cpp that is used up to DC_LIMIT rows (SmallProblem).  The divide
    and conquer algorithm proper is the parameter [dc].  U (M rows) and Vt (P columns) are
    both wanted (cptr() not null).  D and E are real: real elements of C. *)
From Verif Require Import Base FMat RowPerm Cplx Givens.
From mathcomp Require Import all_ssreflect all_algebra.
Set Implicit Arguments. Unset Strict Implicit. Unset Printing Implicit Defensive.
Import GRing.Theory Num.Theory.
Local Open Scope ring_scope.

(** What running a loop for some number of steps can give: a result, an access outside an
    array, or no result yet. *)
Inductive run (A : Type) : Type := Done of A | Outside | More.
Arguments Outside {A}. Arguments More {A}.
Definition bindR {A B} (r : run A) (f : A -> run B) : run B :=
  match r with Done a => f a | Outside => Outside | More => More end.

Section Model.
Variable C : numClosedFieldType.
(** TMV_Epsilon<T>() and TMV_Underflow. *)
Variable eps : C.
Variable under : C -> bool.
(** DC_LIMIT and the algorithm used above it. *)
Variable dclim : nat.
Record bst := St { sU : fm C; sD : fv C; sE : fv C; sV : fm C }.
Variable dc : nat -> nat -> bst -> run bst.
(** Rows of U, columns of Vt, elements of the memory of E. *)
Variables M P esz : nat.
Implicit Types (c s x y : C) (X : fm C) (st : bst).

(** Givens::mult on a pair of rows of n elements, and on a pair of columns (the rows of the
    transpose), TMV_Givens.h:208-222. *)
Definition rotrows c s (n a b : nat) X : fm C :=
  let w := gvec c s false false n (X a, X b) in
  fun i => if i == a then w.1 else if i == b then w.2 else X i.
Definition rotcols c s (n a b : nat) X : fm C := trm (rotrows c s n a b (trm X)).

(** BidiagonalZeroFirstRow, TMV_SVDecompose_QR.cpp:119-167, called with
    U.colRange(p,p+n+1), D.subVector(p+1,p+n+1) and E.subVector(p,p+n).  The test
    "if (i<N)" is always true: the last pass reads and writes the element of E after
    the view, which need not exist. *)
Definition zfr_step (p n i : nat) (r : run (bst * C)) : run (bst * C) := bindR r (fun sx =>
  let: (st, x) := sx in
  let d := (p + 1 + i)%N in
  let r := grot eps (sD st d) x in
  let D := updv (sD st) d (r_x r) in
  if (i < n)%N then
    if (d < esz)%N then
      let w := gmult (r_c r) (r_s r) (sE st d, r_y r) in
      Done (St (rotcols (r_c r) (r_s r)^* M d p (sU st)) D (updv (sE st) d w.1) (sV st), w.2)
    else Outside
  else Done (St (rotcols (r_c r) (r_s r)^* M d p (sU st)) D (sE st) (sV st), r_y r)).
Definition ZeroFirstRow (p n : nat) st : run bst :=
  let x := sE st p in
  if x == 0 then Done st
  else
    let st := St (sU st) (sD st) (updv (sE st) p 0) (sV st) in
    bindR (foldl (fun r i => zfr_step p n i r) (Done (st, x)) (iota 0 n)) (fun sx => Done sx.1).

(** BidiagonalZeroLastCol, 170-215, called with D.subVector(p,p+n), E.subVector(p,p+n) and
    Vt.rowRange(p,p+n+1). *)
Definition zlc_step (p n i : nat) (sx : bst * C) : bst * C :=
  let: (st, x) := sx in
  let r := grot eps (sD st (p + i)%N) x in
  let D := updv (sD st) (p + i) (r_x r) in
  let V := rotrows (r_c r) (r_s r)^* P (p + i) (p + n) (sV st) in
  if (0 < i)%N then
    let w := gmult (r_c r) (r_s r) (sE st (p + i - 1)%N, r_y r) in
    (St (sU st) D (updv (sE st) (p + i - 1) w.1) V, w.2)
  else (St (sU st) D (sE st) V, r_y r).
Definition ZeroLastCol (p n : nat) st : bst :=
  let x := sE st (p + n - 1)%N in
  if x == 0 then st
  else
    let st := St (sU st) (sD st) (updv (sE st) (p + n - 1) 0) (sV st) in
    (foldl (fun sx i => zlc_step p n i sx) (st, x) (rev (iota 0 n))).1.

(** BidiagonalTrailingEigenValue, 219-268, on the n rows from p on. *)
Definition TrailingEV (p n : nat) (D E : fv C) : C :=
  let a := `|D (p + n - 2)%N| ^+ 2 + (if (2 < n)%N then `|E (p + n - 3)%N| ^+ 2 else 0) in
  let c := `|D (p + n - 1)%N| ^+ 2 + `|E (p + n - 2)%N| ^+ 2 in
  let absb := `|D (p + n - 2)%N * E (p + n - 2)%N| in
  let d := (c - a) / 2%:R in
  if d == 0 then c + absb
  else let bod := absb / d in c + absb * bod / (1 + sqrtC (1 + `|bod| ^+ 2)).

(** The rotations (c1,s1,c2,s2) of ReduceBidiagonal22, 361-545, and the flag exact. *)
Definition tenth : C := 10%:R^-1.
Definition max2 x y : C := if x < y then y else x.
(** c = 1 - s^2/(1+c) for small s, 376-380, 443. *)
Definition smallc c s : C := if `|s| < tenth then 1 - s * s / (1 + c) else c.
(** norm1 with the sign of c1, 438-441, 535-538. *)
Definition nrm1 c s : C := if c < 0 then - sqrtC (s * s + c * c) else sqrtC (s * s + c * c).
(** absd > 0.1: b and z, s2, c2, 368-374; c1, 383-436; all of it, 366-444. *)
Definition b22 (u w d : C) : C := u * w / `|d|.
Definition z22 (u w d : C) : C := sqrtC (1 + b22 u w d * b22 u w d).
Definition s22 (u w d : C) : C :=
  let s2 := b22 u w d / sqrtC (2%:R * z22 u w d * (z22 u w d + 1)) in if d < 0 then - s2 else s2.
Definition c22 (s2 : C) : C := smallc (sqrtC (1 - s2 * s2)) s2.
Definition c21 (u v w d c2 s2 : C) : C :=
  let s1 := s2 * v in
  let c1 := s2 * w - c2 * u in
  if `|c1| < tenth * `|s1| then
    let b := b22 u w d in let z := z22 u w d in
    let W := ((u - v) * (u + v) - d * b * b * (1 + 1 / (1 + z))) / (w * w) in
    u * u / d * (w * w / d) * (u * u + (u - v) * (u + v) + 2%:R * W * d) /
      ((s2 * w + c2 * u) * (2%:R * z * (1 + z)))
  else c1.
Definition big22 (u v w d : C) (exact : bool) : C * C * C * C * bool :=
  let s2 := s22 u w d in
  let c2 := c22 s2 in
  let s1 := s2 * v in
  let c1 := c21 u v w d c2 s2 in
  let n := nrm1 c1 s1 in
  (smallc (c1 / n) (s1 / n), s1 / n, c2, s2, exact).
(** absd <= 0.1, 445-541: the first (c2,s2), the Newton step, c1 and s1. *)
Definition first22 (b d absd : C) : C * C :=
  let s2 := if d < 0 then - b else b in
  let c2 := absd + sqrtC (d * d + b * b) in
  let norm2 := sqrtC (s2 * s2 + c2 * c2) in
  (c2 / norm2, s2 / norm2).
Definition newt22 (b f c2 s2 : C) : C * C :=
  let t2 := s2 / c2 in
  let dt := (b - t2 * (b * (t2 + b) - (1 - f) * (1 + f))) / (b * (2%:R * t2 + b) - (1 - f) * (1 + f)) in
  let dt := dt * (c2 * c2) in
  let s2' := s2 + c2 * dt in
  let c2' := c2 - s2 * dt in
  let norm2 := sqrtC (s2' * s2' + c2' * c2') in
  (c2' / norm2, s2' / norm2).
Definition sml22 (u v w d : C) : C * C * C * C * bool :=
  let b := w / u in
  let f := v / u in
  let p := first22 b (d / (u * u)) `|d| in
  let p := newt22 b f p.1 p.2 in
  let c2 := p.1 in let s2 := p.2 in
  let s1 := s2 * f in
  let c1 := s2 * b - c2 in
  (c1 / nrm1 c1 s1, s1 / nrm1 c1 s1, c2, s2, false).
Definition scl22 (u v w : C) : C * C * C * C * bool :=
  let exact := ~~ (1000%:R^-1 < `|w|) in
  let d := ((v - u) * (v + u) + w * w) / 2%:R in
  if tenth < `|d| then big22 u v w d exact else sml22 u v w d.
Definition rot22 (d0 d1 e : C) : C * C * C * C * bool :=
  let mx := max2 (max2 `|d1| `|e|) `|d0| in
  scl22 (d0 / mx) (d1 / mx) (e / mx).
(** The rest of ReduceBidiagonal22, 560-590, on the rows p and p+1. *)
Definition Reduce22 (p : nat) st : bst :=
  let d0 := sD st p in let d1 := sD st p.+1 in let e := sE st p in
  let: (c1, s1, c2, s2, exact) := rot22 d0 d1 e in
  let: (d0', d1', e') :=
    if exact then (d0 * (c1 / c2), d1 * (c2 / c1), 0)
    else (c1 * c2 * d0 - c1 * s2 * e - s1 * s2 * d1,
          - s1 * s2 * d0 - s1 * c2 * e + c1 * c2 * d1,
          c1 * s2 * d0 + c1 * c2 * e + s1 * c2 * d1) in
  St (rotcols c1 s1 M p p.+1 (sU st)) (updv (updv (sD st) p d0') p.+1 d1') (updv (sE st) p e')
     (rotrows c2 (- s2) P p p.+1 (sV st)).

(** ReduceBidiagonal, 597-705, on the n rows from p on. *)
Definition sweep_step (p n i : nat) (sg : bst * C * C * C) : bst * C * C * C :=
  let: (st, x, c, s) := sg in
  let: St U D E V := st in
  let k := (p + i - 1)%N in
  let w := gmult c s (D k, E k) in
  let D := updv D k w.1 in let E := updv E k w.2 in
  let V := rotrows c s^* P k (p + i) V in
  let w := gmult c s (x, D (p + i)%N) in
  let x := w.1 in let D := updv D (p + i) w.2 in
  let r := grot eps (D k) x in
  let D := updv D k (r_x r) in let x := r_y r in
  let c := r_c r in let s := r_s r in
  let w := gmult c s (E k, D (p + i)%N) in
  let E := updv E k w.1 in let D := updv D (p + i) w.2 in
  let U := rotcols c s^* M k (p + i) U in
  if (i < n - 1)%N then
    let w := gmult c s (x, E (p + i)%N) in
    let x := w.1 in let E := updv E (p + i) w.2 in
    let r := grot eps (E k) x in
    (St U D (updv E k (r_x r)) V, r_y r, r_c r, r_s r)
  else (St U D E V, x, c, s).
Definition Reduce (p n : nat) st : bst :=
  if n == 1%N then st
  else if n == 2%N then Reduce22 p st
  else
    let mu := TrailingEV p n (sD st) (sE st) in
    let y := `|sD st p| ^+ 2 - mu in
    let x := (sD st p)^* * sE st p in
    let r := grot eps y x in
    (foldl (fun sg i => sweep_step p n i sg) (st, r_y r, r_c r, r_s r) (iota 1 (n - 1))).1.1.1.

(** BidiagonalChopSmallElements, 56-117, on the n rows from p on; the flag is *zd. *)
Definition chop_step (p k : nat) (s : fv C * fv C * bool) : fv C * fv C * bool :=
  let: (D, E, zd) := s in
  let i := (p + k)%N in
  let: (D, zd) := if under (`|D i.+1| ^+ 2) then (updv D i.+1 0, true) else (D, zd) in
  let E := if ~~ (eps * (`|D i.+1| + `|D i|) < `|E i|) || under (E i) then updv E i 0 else E in
  let: (D, E) :=
    if under (D i.+1 * E i) && (D i.+1 != 0) && (E i != 0) then
      (if `|E i| <= `|D i.+1| then (D, updv E i 0) else (updv D i.+1 0, E)) else (D, E) in
  let: (D, E) :=
    if under (D i * E i) && (D i != 0) && (E i != 0) then
      (if `|E i| <= `|D i| then (D, updv E i 0) else (updv D i 0, E)) else (D, E) in
  (D, E, zd).
Definition Chop (p n : nat) st : bst * bool :=
  let: (D, zd) := if under (`|sD st p| ^+ 2) then (updv (sD st) p 0, true) else (sD st, false) in
  let: (D, E, zd) := foldl (fun t k => chop_step p k t) (D, sE st, zd) (iota 0 (n - 1)) in
  (St (sU st) D E (sV st), zd).

(** while (p > 0 && cont(p)) --p. *)
Fixpoint srch (cont : nat -> bool) (p : nat) : nat :=
  if p is p'.+1 then (if cont p then srch cont p' else p) else 0%N.

(** Make the values of the n rows from o on positive: TMV_SVDecompose_DC.cpp:898-904,
    TMV_SVDecompose.cpp:205-214. *)
Definition pos_step (o : nat) st (i : nat) : bst :=
  let k := (o + i)%N in
  if sD st k < 0 then
    St (sU st) (updv (sD st) k (- sD st k)) (sE st)
       (fun r j => if (r == k) && (j < P)%N then - sV st r j else sV st r j)
  else st.
Definition MakePos (o n : nat) st : bst := foldl (pos_step o) st (iota 0 n).

(** SV_DecomposeFromBidiagonal_QR, TMV_SVDecompose_QR.cpp:737-850, from the index q down, on the n
    rows from o on; DoSVDecomposeFromBidiagonal, TMV_SVDecompose.cpp:62-154; the loop of the
    latter from q down; DoSVDecomposeFromBidiagonal_NZ, 51-60, with
    SV_DecomposeFromBidiagonal_DC and SmallProblem, TMV_SVDecompose_DC.cpp:890-906, 1062-1073.
    These call each other; the fuel bounds the number of steps. *)
Fixpoint QRdec (fuel o n q : nat) st : run bst :=
  match fuel with
  | 0 => More
  | f.+1 =>
    if q is q'.+1 then
      if sE st (o + q')%N == 0 then QRdec f o n q' st
      else
        let p := srch (fun p => sE st (o + p - 1)%N != 0) q' in
        let st := Reduce (o + p) (q - p + 1) st in
        let: (st, zd) := Chop (o + p) (q - p + 1) st in
        if zd then bindR (DoDec f (o + p) (q - p + 1) st) (fun st => QRdec f o n p st)
        else QRdec f o n q st
    else Done st
  end
with DoDec (fuel o n : nat) st : run bst :=
  match fuel with
  | 0 => More
  | f.+1 => DoLoop f o n (n - 1) (Chop o n st).1
  end
with DoLoop (fuel o n q : nat) st : run bst :=
  match fuel with
  | 0 => More
  | f.+1 =>
    if q is q'.+1 then
      if sE st (o + q')%N == 0 then DoLoop f o n q' st
      else if sD st (o + q)%N == 0 then
        let p := srch (fun p => sE st (o + p - 1)%N != 0) q' in
        DoLoop f o n q' (ZeroLastCol (o + p) (q - p) st)
      else
        let p := srch (fun p => (sE st (o + p - 1)%N != 0) && (sD st (o + p)%N != 0)) q' in
        bindR (if sD st (o + p)%N == 0 then ZeroFirstRow (o + p) (q - p) st else Done st) (fun st' =>
        let p := if sD st (o + p)%N == 0 then p.+1 else p in
        bindR (if (p < q)%N then NZ f (o + p) (q - p + 1) st' else Done st') (fun st =>
        DoLoop f o n p st))
    else Done st
  end
with NZ (fuel o n : nat) st : run bst :=
  match fuel with
  | 0 => More
  | f.+1 =>
    if (n <= dclim)%N then
      bindR (if (1 < n)%N then QRdec f o n (n - 1) st else Done st) (fun st => Done (MakePos o n st))
    else dc o n st
  end.

(** NonLapSVDecomposeFromBidiagonal, TMV_SVDecompose.cpp:157-222, without setUV.  [srt] is the
    permutation that D.sort(sortp,Descend) gives (C07). *)
Variable srt : nat -> fv C -> nat -> nat.
Definition maxel (n : nat) (x : fv C) : C := foldl (fun m i => max2 m `|x i|) 0 (iota 0 n).
Definition FromBidiagonal (fuel N : nat) st : run bst :=
  let scale := max2 (maxel (N - 1) (sE st)) (maxel N (sD st)) in
  if under scale then
    Done (St (sU st) (fun i => if (i < N)%N then 0 else sD st i) (fun i => if (i < N - 1)%N then 0 else sE st i) (sV st))
  else
    let st := St (sU st) (fun i => if (i < N)%N then sD st i / scale else sD st i)
                 (fun i => if (i < N - 1)%N then sE st i / scale else sE st i) (sV st) in
    bindR (DoDec fuel 0 N st) (fun st =>
    let st := MakePos 0 N st in
    let p := srt N (sD st) in
    Done (St (trm (permrows M p 0 N (trm (sU st))))
             (fun i => if (i < N)%N then sD st (psig p 0 N i) * scale else sD st i)
             (sE st) (permrows P p 0 N (sV st)))).
End Model.
