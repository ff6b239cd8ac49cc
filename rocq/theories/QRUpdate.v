(** Updating and downdating a QR decomposition: src/TMV_QRUpdate.cpp,
    src/TMV_QRDowndate.cpp and HouseholderUnReflect (src/TMV_Householder.cpp).  Exact
    arithmetic in a numClosedFieldType C.  R is an N x N upper triangular matrix (the
    array below its diagonal is not touched) and A has M rows and N columns;
    submatrices are given by their offsets.  Products of matrices are the
    mathematical ones.  A scalar division by zero (inf or nan) is UB. *)
From Coq Require Import Ring Field.
From Verif Require Import Base FMat TriSolve RingTac Cplx QR.
From mathcomp Require Import all_ssreflect all_fingroup all_algebra zify.
Set Implicit Arguments. Unset Strict Implicit. Unset Printing Implicit Defensive.
Import GRing.Theory Num.Theory Order.Theory.
Local Open Scope ring_scope.

Section Model.
Variable C : numClosedFieldType.
(** QR_BLOCKSIZE, TMV_QRUpdate.cpp:44-48, TMV_QRDowndate.cpp:44-48. *)
Variable nb : nat.
(** TMV_Underflow, see QR.v. *)
Variable under : C -> bool.
(** TRI_DIV_BLOCKSIZE and TRI_DIV_BLOCKSIZE2 (TriSolve.v), and the storage of R. *)
Variables (tb tb2 : nat) (stR : stor).
Implicit Types (A R Z : fm C) (x : fv C).

(** HouseholderReflect(x0,x,det), TMV_Householder.cpp:45-181, with x a vector of M
    elements apart from x0 and det = 0: the new x0, the new x and beta.  ([hreflect] of
    QR.v is the same function on a contiguous column.) *)
Definition hreflV (M : nat) (x0 : C) x : C * fv C * C :=
  let: (B, b, _) := hreflect under M.+1 0 (fun i _ => if i is i'.+1 then x i' else x0) 0 in
  (B 0%N 0%N, fun i => B i.+1 0%N, b).

(** A.col(k).conjugate() * A.col(c), an element of A1.adjoint() * A2. *)
Definition YtA (M : nat) A (k c : nat) : C := \sum_(0 <= i < M) (A i k)^* * A i c.

(** TMV_QRUpdate.cpp:158-162 (columns [o,o+n) and [c0,c1)) and 196-201: Zx, R and A. *)
Definition upZW (M o n : nat) A R Z (k c : nat) : C :=
  \sum_(o <= l < o + n) (zelt Z l k)^* * (YtA M A l c + R l c).
Definition subR (o n c0 c1 : nat) R (ZW : fm C) : fm C := fun k c =>
  if (o <= k < o + n)%N && (c0 <= c < c1)%N then R k c - ZW k c else R k c.
Definition subA (M o n c0 c1 : nat) A (ZW : fm C) : fm C := fun i c =>
  if (i < M)%N && (c0 <= c < c1)%N then A i c - \sum_(o <= k < o + n) A i k * ZW k c else A i c.
Definition putZ (o n c0 c1 : nat) (Z ZW : fm C) : fm C := fun k c =>
  if (o <= k < o + n)%N && (c0 <= c < c1)%N then ZW k c else Z k c.

(** Zx = -Z1 (A1.adjoint() * A2) Z2, TMV_QRUpdate.cpp:167-169 and
    TMV_QRDowndate.cpp:257-259. *)
Definition upZ3 (M o j1 n : nat) A Z : fm C :=
  let Z3 := fun k l => - \sum_(o <= t < o + j1) zelt Z k t * YtA M A t l in
  fun k l => if (o <= k < o + j1)%N && (o + j1 <= l < o + n)%N
             then \sum_(o + j1 <= t < o + n) Z3 k t * zelt Z t l else Z k l.

(** RecursiveQRUpdate, TMV_QRUpdate.cpp:82-172, on the columns [o,o+n) of A, with the
    triangles of R and Z at [o,o+n). *)
Fixpoint RecUp (fuel M o n : nat) (mkZ : bool) (s : fm C * fm C * fm C) : outcome (fm C * fm C * fm C) :=
  match fuel with
  | 0 => UB
  | f.+1 =>
    let: (R, A, Z) := s in
    if n == 1%N then
      let: (r, x, b) := hreflV M (R o o) (fun i => A i o) in
      Ok (updm R o o r, setcol o M A x, updm Z o o b^*)
    else if n == 2%N then
      let: (r, x, b0) := hreflV M (R o o) (fun i => A i o) in
      let R := updm R o o r in
      let A := setcol o M A x in
      let: (R, A) :=
        if b0 != 0 then
          let temp := b0 * (YtA M A o o.+1 + R o o.+1) in
          (updm R o o.+1 (R o o.+1 - temp), setcol o.+1 M A (fun i => A i o.+1 - temp * A i o))
        else (R, A) in
      let Z := updm Z o o b0^* in
      let: (r, x, b1) := hreflV M (R o.+1 o.+1) (fun i => A i o.+1) in
      let R := updm R o.+1 o.+1 r in
      let A := setcol o.+1 M A x in
      let Z := updm Z o.+1 o.+1 b1^* in
      Ok (R, A, if mkZ then updm Z o o.+1 (- (Z o o * Z o.+1 o.+1) * YtA M A o o.+1) else Z)
    else
      let j1 := (n %/ 2)%N in
      do s <- RecUp f M o j1 true (R, A, Z);
      let: (R, A, Z) := s in
      let ZW := upZW M o j1 A R Z in
      do s <- RecUp f M (o + j1) (n - j1) mkZ
                (subR o j1 (o + j1) (o + n) R ZW, subA M o j1 (o + j1) (o + n) A ZW,
                 putZ o j1 (o + j1) (o + n) Z ZW);
      let: (R, A, Z) := s in
      Ok (R, A, if mkZ then upZ3 M o j1 n A Z else Z)
  end.

(** BlockQRUpdate, 174-205, from column j1 on. *)
Fixpoint BlockUp (fuel M N j1 : nat) (s : fm C * fm C) Z : outcome (fm C * fm C) :=
  if (j1 < N)%N then
    match fuel with
    | 0 => UB
    | f.+1 =>
      let: (R, A) := s in
      let j2 := minn N (j1 + nb) in
      do s <- RecUp (j2 - j1).+1 M j1 (j2 - j1) (j2 < N)%N (R, A, Z);
      let: (R, A, Z) := s in
      let: (R, A) := if (j2 < N)%N then
          let ZW := upZW M j1 (j2 - j1) A R Z in
          (subR j1 (j2 - j1) j2 N R ZW, subA M j1 (j2 - j1) j2 N A ZW)
        else (R, A) in
      BlockUp f M N j2 (R, A) Z
    end
  else Ok s.

(** QR_Update, 207-240.  Z0: the new work matrix. *)
Definition QR_Update (M N : nat) R A Z0 : outcome (fm C * fm C) :=
  if (0 < N)%N then
    if (nb < N)%N then BlockUp N M N 0 (R, A) Z0
    else
      do s <- RecUp N.+1 M 0 N false (R, A, Z0);
      let: (R, A, _) := s in Ok (R, A)
  else Ok (R, A).

(** Scalar division. *)
Definition sdiv (a b : C) : outcome C := if b == 0 then UB else Ok (a / b).

(** HouseholderUnReflect, TMV_Householder.cpp:271-313: the new y, x and beta; when it
    returns false every caller throws BadQRDowndate, a NonPosDef. *)
Definition hunrefl (M : nat) (y : C) x : outcome (C * fv C * C) :=
  let normsqx1 := \sum_(0 <= i < M) tNORM (x i) in
  if normsqx1 == 0 then Ok (y, x, 0)
  else
    let normsqx := 'Re y ^+ 2 in
    let normsqx0 := normsqx - normsqx1 in
    if normsqx0 < 0 then Throw NonPosDef
    else
      let x0 := if 0 < 'Re y then - sqrtC normsqx0 else sqrtC normsqx0 in
      let v0 := x0 - y in
      do beta <- sdiv (tNORM v0) (normsqx - y * x0);
      do iv0 <- sdiv 1 v0;
      Ok (x0, fun i => x i * iv0, beta).

(** ImZt = T(1)-Z1.adjoint(), TMV_QRDowndate.cpp:240, 304. *)
Definition ImZt Z : fm C := fun i j => (if i == j then 1 else 0) - (zelt Z j i)^*.

(** TMV_QRDowndate.cpp:236-244 (columns [o,o+n) and [c0,c1)) and 297-308: Zx, R and A. *)
Definition dnZW (M o n : nat) A Z (k c : nat) : C := \sum_(o <= l < o + n) (zelt Z l k)^* * YtA M A l c.
Definition dnblock (M o n c0 c1 : nat) R A Z : outcome (fm C * fm C * fm C) :=
  let ZW := dnZW M o n A Z in
  let Rx := fun k c => R k c + ZW k c in
  do X <- TriLDivEqML tb tb2 CM stR false n (c1 - c0) (subm o o (ImZt Z)) (subm o c0 Rx);
  let R := putm o c0 n (c1 - c0) R X in
  let ZW := fun k c => ZW k c + \sum_(o <= l < o + n) (zelt Z l k)^* * R l c in
  Ok (R, subA M o n c0 c1 A ZW, putZ o n c0 c1 Z ZW).

(** RecursiveQRDowndate, TMV_QRDowndate.cpp:128-261. *)
Fixpoint RecDn (fuel M o n : nat) (mkZ : bool) (s : fm C * fm C * fm C) : outcome (fm C * fm C * fm C) :=
  match fuel with
  | 0 => UB
  | f.+1 =>
    let: (R, A, Z) := s in
    if n == 1%N then
      do u <- hunrefl M (R o o) (fun i => A i o);
      let: (y, x, b) := u in
      Ok (updm R o o y, setcol o M A x, updm Z o o b^*)
    else if n == 2%N then
      do u <- hunrefl M (R o o) (fun i => A i o);
      let: (y, x, b0) := u in
      let R := updm R o o y in
      let A := setcol o M A x in
      let Z := updm Z o o b0^* in
      do RA <-
        (if b0 != 0 then
           let vtmx := YtA M A o o.+1 in
           do q <- sdiv (R o o.+1 + b0 * vtmx) (1 - b0);
           let R := updm R o o.+1 q in
           Ok (R, setcol o.+1 M A (fun i => A i o.+1 - b0 * (vtmx + R o o.+1) * A i o))
         else Ok (R, A));
      let: (R, A) := RA in
      do u <- hunrefl M (R o.+1 o.+1) (fun i => A i o.+1);
      let: (y, x, b1) := u in
      let R := updm R o.+1 o.+1 y in
      let A := setcol o.+1 M A x in
      let Z := updm Z o.+1 o.+1 b1^* in
      Ok (R, A, if mkZ then updm Z o o.+1 (- (b0 * b1)^* * YtA M A o o.+1) else Z)
    else
      let j1 := (n %/ 2)%N in
      do s <- RecDn f M o j1 true (R, A, Z);
      let: (R, A, Z) := s in
      do s <- dnblock M o j1 (o + j1) (o + n) R A Z;
      do s <- RecDn f M (o + j1) (n - j1) mkZ s;
      let: (R, A, Z) := s in
      Ok (R, A, if mkZ then upZ3 M o j1 n A Z else Z)
  end.

(** BlockQRDowndate, 264-312, from column j1 on. *)
Fixpoint BlockDn (fuel M N j1 : nat) (s : fm C * fm C) Z : outcome (fm C * fm C) :=
  if (j1 < N)%N then
    match fuel with
    | 0 => UB
    | f.+1 =>
      let: (R, A) := s in
      let j2 := minn N (j1 + nb) in
      do s <- RecDn (j2 - j1).+1 M j1 (j2 - j1) (j2 < N)%N (R, A, Z);
      let: (R, A, Z) := s in
      do RA <- (if (j2 < N)%N then
                  do s <- dnblock M j1 (j2 - j1) j2 N R A Z;
                  let: (R, A, _) := s in Ok (R, A)
                else Ok (R, A));
      BlockDn f M N j2 RA Z
    end
  else Ok s.

(** QR_Downdate, 314-350. *)
Definition QR_Downdate (M N : nat) R A Z0 : outcome (fm C * fm C) :=
  if (0 < N)%N then
    if (nb < N)%N then BlockDn N M N 0 (R, A) Z0
    else
      do s <- RecDn N.+1 M 0 N false (R, A, Z0);
      let: (R, A, _) := s in Ok (R, A)
  else Ok (R, A).
End Model.
