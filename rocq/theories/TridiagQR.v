(** Eigenvalues and eigenvectors of a hermitian matrix, in exact arithmetic and without
    LAPACK: /repo/src/TMV_SymSVDecompose_QR.cpp, /repo/src/TMV_SymSVDecompose.cpp:56-101,
    1087-1200, 1203-1302, 1304-1342, 1468-1495, and the part of
    /repo/src/TMV_SymSVDecompose_DC.cpp that is used up to DC_LIMIT rows (SmallProblem,
    926-932).  The divide and conquer algorithm proper is the parameter [dc].  U (M rows) is
    wanted (cptr() not null).  D and E are real: real elements of C. *)
From Verif Require Import Base FMat RowPerm Cplx Givens QR QRDiv BidiagQR Perm Sort Tridiag SVDecompose.
From mathcomp Require Import all_ssreflect all_algebra.
Set Implicit Arguments. Unset Strict Implicit. Unset Printing Implicit Defensive.
Import GRing.Theory Num.Theory.
Local Open Scope ring_scope.

Section Model.
Variable C : numClosedFieldType.
(** TMV_Epsilon<T>() and TMV_Underflow. *)
Variable eps : C.
Variable under : C -> bool.
(** DC_LIMIT and the algorithm used above it. *)
Variable dclim : nat.
Record tst := TS { tU : fm C; tD : fv C; tE : fv C }.
Variable dc : nat -> nat -> tst -> run tst.
(** Rows of U. *)
Variable M : nat.
Implicit Types (c s x y : C) (U A : fm C) (D E : fv C) (st : tst).

(** HermTridiagonalChopSmallElements, TMV_SymSVDecompose_QR.cpp:48-97, on the n rows from p
    on.  In the last test a quotient by zero is an infinity or a NaN, which TMV_Underflow
    is not true of. *)
Definition hchop_step (p k : nat) (s : fv C * fv C) : fv C * fv C :=
  let: (D, E) := s in
  let i := (p + k)%N in
  let D := if under (D i.+1) then updv D i.+1 0 else D in
  let E := if ~~ (eps * (`|D i.+1| + `|D i|) < `|E i|) || under (E i) then updv E i 0 else E in
  let E := if (`|E i| < sqrtC eps * (`|D i.+1| + `|D i|)) && (D i.+1 + D i != 0) &&
              under (E i * ((D i.+1 - D i) / (D i.+1 + D i))) then updv E i 0 else E in
  (D, E).
Definition HChop (p n : nat) st : tst :=
  let D := if under (tD st p) then updv (tD st) p 0 else tD st in
  let: (D, E) := foldl (fun t k => hchop_step p k t) (D, tE st) (iota 0 (n - 1)) in
  TS (tU st) D E.

(** TridiagonalTrailingEigenValue, 99-137, on the n rows from p on. *)
Definition HTrailingEV (p n : nat) D E : C :=
  let a := D (p + n - 2)%N in
  let c := D (p + n - 1)%N in
  let absb := `|E (p + n - 2)%N| in
  let d := (c - a) / 2%:R in
  if d == 0 then c + absb
  else let bod := absb / d in c + absb * bod / (1 + sqrtC (1 + `|bod| ^+ 2)).

(** ReduceHermTridiagonal, 139-270, on the n rows from p on: one pass of its loop.  The
    state is the matrices, x and the rotation G. *)
Definition hsweep_step (p n i : nat) (sg : tst * C * C * C) : tst * C * C * C :=
  let: (st, x, c, s) := sg in
  let: TS U D E := st in
  let k := (p + i)%N in
  let: (d0, d1, e0) := gsmult true c s (D k, D k.+1, E k) in
  let D := updv (updv D k d0) k.+1 d1 in
  let E := updv E k e0 in
  let U := rotcols c s M k k.+1 U in
  if (i < n - 2)%N then
    let w := gmult c s (x, E k.+1) in
    let E := updv E k.+1 w.2 in
    let r := grot eps (E k) w.1 in
    (TS U D (updv E k (r_x r)), r_y r, r_c r, r_s r)
  else (TS U D E, x, c, s).
Definition HReduce (p n : nat) st : tst :=
  if n == 1%N then st
  else
    let mu := HTrailingEV p n (tD st) (tE st) in
    let r := grot eps (tD st p - mu) (tE st p) in
    (foldl (fun sg i => hsweep_step p n i sg) (st, r_y r, r_c r, r_s r) (iota 0 (n - 1))).1.1.1.

(** EigenFromTridiagonal_QR, 272-348, from the index q down, on the rows from o on.  The fuel
    bounds the number of passes of the loop. *)
Fixpoint HQR (fuel o q : nat) st : run tst :=
  match fuel with
  | 0 => More
  | f.+1 =>
    if q is q'.+1 then
      if tE st (o + q')%N == 0 then HQR f o q' st
      else
        let p := srch (fun p => tE st (o + p - 1)%N != 0) q' in
        HQR f o q (HChop (o + p) (q - p + 1) (HReduce (o + p) (q - p + 1) st))
    else Done st
  end.
(** DoEigenFromTridiagonal_NZ, TMV_SymSVDecompose.cpp:56-62, with EigenFromTridiagonal_DC and
    SmallProblem, TMV_SymSVDecompose_DC.cpp:926-932. *)
Definition HNZ (fuel o n : nat) st : run tst :=
  if (n <= dclim)%N then HQR fuel o (n - 1) st else dc o n st.
(** NonLapEigenFromTridiagonal, TMV_SymSVDecompose.cpp:64-101: its loop from q down, and all
    of it. *)
Fixpoint HLoop (fuel q : nat) st : run tst :=
  match fuel with
  | 0 => More
  | f.+1 =>
    if q is q'.+1 then
      if tE st q' == 0 then HLoop f q' st
      else
        let p := srch (fun p => tE st (p - 1)%N != 0) q' in
        bindR (HNZ f p (q - p + 1) st) (fun st => HLoop f p st)
    else Done st
  end.
Definition HDo (fuel N : nat) st : run tst := HLoop fuel (N - 1) (HChop 0 N st).

(** std::sort on pairs of a value and an index. *)
Variable stdsort : (C * nat -> C * nat -> bool) -> list (C * nat) -> list (C * nat).
(** The permutation that D.sort(p,ad,comp) puts in p, a new array, for the first n elements
    of D (the model of C07); key is the absolute value for AbsComp. *)
Definition sortk (key : C -> C) (ad : adtype) (n : nat) D : nat -> nat :=
  match sort_p key -%R (fun a b : C => 'Re a < 'Re b) stdsort ad (nseq n 0%N) (map D (iota 0 n)) with
  | Ok (P, _) => fun k => List.nth k P 0%N
  | _ => id
  end.
(** D.sort(sortp,ad,comp); U.permuteCols(sortp). *)
Definition sortUD (key : C -> C) (ad : adtype) (N : nat) U D : fm C * fv C :=
  let p := sortk key ad N D in
  (trm (permrows M p 0 N (trm U)), fun i => if (i < N)%N then D (psig p 0 N i) else D i).

(** EigenFromTridiagonal, TMV_SymSVDecompose.cpp:1087-1200. *)
Definition EigenFromTridiagonal (fuel N : nat) st : run tst :=
  if N == 0%N then Done st else
  let scale := max2 (maxel N (tD st)) (maxel (N - 1) (tE st)) in
  if under scale then
    Done (TS (tU st) (fun i => if (i < N)%N then 0 else tD st i) (fun i => if (i < N - 1)%N then 0 else tE st i))
  else
    let st := TS (tU st) (fun i => if (i < N)%N then tD st i / scale else tD st i)
                 (fun i => if (i < N - 1)%N then tE st i / scale else tE st i) in
    bindR (HDo fuel N st) (fun st =>
    let: (U, D) := sortUD Num.norm Descend N (tU st) (tD st) in
    Done (TS U (fun i => if (i < N)%N then D i * scale else D i) (tE st))).
End Model.

Section Eigen.
Variable C : numClosedFieldType.
Variables (eps : C) (under : C -> bool) (dclim nb tb : nat).
Variable dc : nat -> nat -> nat -> tst C -> run (tst C).
Variable blk : nat -> fm C -> fv C -> fv C -> fv C -> fm C * fv C * fv C * fv C.
Variable stdsort : (C * nat -> C * nat -> bool) -> list (C * nat) -> list (C * nat).
Implicit Types (U A : fm C) (D E SS : fv C).

(** The contents of newly allocated memory: Ubeta, E and the work matrix of GetQFromQR. *)
Record hwork := HWork { h_beta : fv C; h_E : fv C; h_Z : fm C }.

(** UnsortedHermEigen of a matrix that is not conjugated, 1203-1276. *)
Definition UnsortedHermEigen (fuel N : nat) U SS (w : hwork) : outcome (option (fm C * fv C)) :=
  if N == 0%N then Ok (Some (U, SS))
  else
    do r <- TridiagUnpack under tb blk nb N U (h_beta w) SS (h_E w) (h_Z w);
    let: (U, D, E) := r in
    toR (bindR (EigenFromTridiagonal eps under dclim (dc N) N stdsort fuel N (TS U D E)) (fun st =>
         Done (tU st, tD st))).

(** Eigen(A,U,SS), 1468-1484.  A i j are the elements of the hermitian matrix, U those seen
    through the view; [uconj]: the view is conjugated, so that the memory holds the
    conjugates. *)
Definition conjm U : fm C := fun i j => (U i j)^*.
Definition setlow (N : nat) A U : fm C := fun i j => if ((j <= i) && (i < N))%N then A i j else U i j.
Definition Eigen0 (fuel N : nat) A U SS (w : hwork) : outcome (option (fm C * fv C)) :=
  do r <- UnsortedHermEigen fuel N (setlow N A U) SS w;
  Ok (if r is Some (U, SS) then Some (sortUD N stdsort id Ascend N U SS) else None).
Definition Eigen (uconj : bool) (fuel N : nat) A U SS (w : hwork) : outcome (option (fm C * fv C)) :=
  if uconj then
    do r <- Eigen0 fuel N (conjm A) (conjm U) SS w;
    Ok (if r is Some (U, SS) then Some (conjm U, SS) else None)
  else Eigen0 fuel N A U SS w.

(** HermSV_Decompose, 1304-1342, of the matrix in the lower triangle of U. *)
Definition HermSV_Decompose (fuel N : nat) U SS (w : hwork) : outcome (option (fm C * fv C)) :=
  do r <- UnsortedHermEigen fuel N U SS w;
  Ok (if r is Some (U, SS) then Some (sortUD N stdsort Num.norm Descend N U SS) else None).
End Eigen.
