(** Rank-1 and rank-k updates of symmetric and hermitian matrices:
    src/TMV_Rank1_VVS.cpp and src/TMV_RankK_MMS.cpp, the native (not BLAS) branches,
    all operands of element type T. *)
From Coq Require Import ZArith Lia Bool List Ring Arith.
From Verif Require Import Base Scal MatMem MatVec.
Open Scope Z_scope.

(** SymMatrixView (TMV_SymMatrix.h:1050-1120): a square matrix of which one triangle is used
    ([sup]: the upper one); [sh]: sym() == Herm. *)
Record smat := mkS { sa : mat; sup : bool; sh : bool }.

Section Model.
Context {K : scal}.
Implicit Types (m : hmem K) (x : vec) (A X : mat) (alpha : K).

(** isherm(), issym(), TMV_SymMatrix.h:455-460: both true for real types. *)
Definition isherm (S : smat) : bool := negb (kcplx K) || sh S.
Definition issym (S : smat) : bool := negb (kcplx K) || negb (sh S).
(** transpose(), adjoint(), conjugate(), TMV_SymMatrix.h:700-760. *)
Definition strans (S : smat) : smat := mkS (tr (sa S)) (negb (sup S)) (sh S).
Definition sconj (S : smat) : smat := mkS (mconj K (sa S)) (sup S) (sh S).
Definition sadj (S : smat) : smat := strans (sconj S).

(** x or conj(x). *)
Definition hc (ha : bool) (x : K) : K := if ha then cj x else x.

(** A.diag().imagPart().setZero() *)
Definition realdiag A m : hmem K :=
  upto (acs A) (fun i m => hset m (mloc A i i) (kre (m (mloc A i i)))) m.

(** RowRank1Update, TMV_Rank1_VVS.cpp:50-141.  x is walked with ++; [rm] makes the row
    step 1. *)
Definition SRowRank1 (a1 cx ha rm add : bool) alpha x A m : hmem K :=
  let sj := if rm then 1 else asj A in
  let x0 := m (vb x, vp x) in
  let A00 := if keqb x0 k0 then k0
             else if ha then kmul alpha (kmul x0 (cj x0))
             else if cx then kmul alpha (cj (kmul x0 x0)) else kmul alpha (kmul x0 x0) in
  let m := upto (acs A - 1) (fun q m =>
    let i := S q in
    let xi := m (vb x, vp x + Z.of_nat i) in
    let Arowi := ap A + Z.of_nat i * asi A in
    if negb (keqb xi k0) then
      let axi := cjif cx xi in
      let axi := if a1 then axi else kmul alpha axi in
      upto (S i) (fun j m =>
        let Aij := (ab A, Arowi + Z.of_nat j * sj) in
        let xj := m (vb x, vp x + Z.of_nat j) in
        let temp := kmul axi (if Bool.eqb ha cx then xj else cj xj) in
        hset m Aij (if add then kadd (m Aij) temp else temp)) m
    else if negb add then
      upto (S i) (fun j m => hset m (ab A, Arowi + Z.of_nat j * sj) k0) m
    else m) m in
  let a := (ab A, ap A) in
  let m := hset m a (if add then kadd (m a) A00 else A00) in
  if ha && kcplx K then realdiag A m else m.

(** ColRank1Update, 143-221, from the last column to the first. *)
Definition SColRank1 (a1 cx ha cm add : bool) alpha x A m : hmem K :=
  let si := if cm then 1 else asi A in
  let ds := asj A + si in
  let m := upto (acs A) (fun q m =>
    let j := (acs A - 1 - q)%nat in
    let xj := m (vb x, vp x + Z.of_nat j) in
    let Ajj := ap A + Z.of_nat j * ds in
    if negb (keqb xj k0) then
      let axj := if xorb ha cx then cj xj else xj in
      let axj := if a1 then axj else kmul alpha axj in
      upto (acs A - j) (fun k m =>
        let Aij := (ab A, Ajj + Z.of_nat k * si) in
        let xi := m (vb x, vp x + Z.of_nat (j + k)) in
        let temp := kmul axj (cjif cx xi) in
        hset m Aij (if add then kadd (m Aij) temp else temp)) m
    else if negb add then
      upto (acs A - j) (fun k m => hset m (ab A, Ajj + Z.of_nat k * si) k0) m
    else m) m in
  if ha && kcplx K then realdiag A m else m.

(** DoRank1Update, 223-245. *)
Definition DoRank1 (a1 cx ha add : bool) alpha x A m : hmem K :=
  if isrm A then SRowRank1 a1 cx ha true add alpha x A m
  else if iscm A then SColRank1 a1 cx ha true add alpha x A m
  else SRowRank1 a1 cx ha false add alpha x A m.

(** [Vector<T> xx = x;] in block b. *)
Definition vcopy (b : nat) x m : hmem K :=
  upto (vs x) (fun i m => hset m (vloc (vtmp b (vs x)) i) (vget m x i)) m.

(** NonBlasRank1Update, 247-291; [fuel] bounds the recursion on the view. *)
Fixpoint NonBlasRank1 (fuel : nat) (add : bool) alpha x (S : smat) m : option (hmem K) :=
  match fuel with
  | O => None
  | Datatypes.S f =>
    if sup S then NonBlasRank1 f add alpha x (if issym S then strans S else sadj S) m
    else if acj (sa S) then NonBlasRank1 f add (cj alpha) (vconj K x) (sconj S) m
    else
      let a := if kisreal alpha then kre alpha else alpha in
      let a1 := kisreal alpha && keqb (kre alpha) k1 in
      if negb (vst x =? 1) then
        let m := vcopy 1 x m in
        Some (DoRank1 a1 false (isherm S) add a (vtmp 1 (vs x)) (sa S) m)
      else if vcj x then Some (DoRank1 a1 true (isherm S) add a x (sa S) m)
      else Some (DoRank1 a1 false (isherm S) add a x (sa S) m)
  end.

(** Rank1Update, 544-620. *)
Definition SRank1Update (add : bool) alpha x (S : smat) m : option (hmem K) :=
  if negb (keqb alpha k0) && (0 <? acs (sa S))%nat then NonBlasRank1 3 add alpha x S m else Some m.

(** ** Rank k *)

(** rowRange, colRange, subMatrix, subSymMatrix, row, col (TMV_Matrix.h:660-760,
    TMV_SymMatrix.h:620-660). *)
Definition rrange X (i1 i2 : nat) : mat :=
  mkMat (ab X) (ap X + Z.of_nat i1 * asi X) (i2 - i1) (ars X) (asi X) (asj X) (acj X).
Definition crange X (j1 j2 : nat) : mat :=
  mkMat (ab X) (ap X + Z.of_nat j1 * asj X) (acs X) (j2 - j1) (asi X) (asj X) (acj X).
Definition smx X (i1 i2 j1 j2 : nat) : mat := rrange (crange X j1 j2) i1 i2.
Definition mcol X (j : nat) : vec := mkVec (ab X) (ap X + Z.of_nat j * asj X) (acs X) (asi X) (acj X).

(** One element of alpha * x * x^T (or x^dagger). *)
Definition xxt (ha : bool) X m (i j : nat) : K :=
  sum (ars X) (fun k => kmul (mget m X i k) (hc ha (mget m X j k))).

(** [A (+)= alpha * p] for the elements (i,j), i in [i1,i2), j in [j1 i, j2 i), of a product p whose elements
    are computed before anything is written (the product itself: C29, C43). *)
Definition putprod (add : bool) alpha (p : nat -> nat -> K) A (i1 i2 : nat) (j1 j2 : nat -> nat) m : hmem K :=
  upto (i2 - i1) (fun r m => upto (j2 (i1 + r)%nat - j1 (i1 + r)%nat) (fun c m =>
    let a := mloc A (i1 + r) (j1 (i1 + r)%nat + c) in
    let t := kmul alpha (p (i1 + r)%nat (j1 (i1 + r)%nat + c)%nat) in
    hset m a (if add then kadd (m a) t else t)) m) m.

(** RecursiveRankKUpdate, TMV_RankK_MMS.cpp:60-143.  [bs] and [bs2] are SYM_RK_BLOCKSIZE and
    SYM_RK_BLOCKSIZE2: 64 and 1, or TMV_BLOCKSIZE and half of it.  The factor alpha == 1 is
    not treated apart. *)
Fixpoint RecRankK (fuel bs bs2 : nat) (ha add : bool) alpha X A m : option (hmem K) :=
  match fuel with
  | O => None
  | S f =>
    let N := acs A in
    if (N <=? bs2)%nat then
      if (N =? 1)%nat then
        let temp := kmul alpha (xxt ha X m 0 0) in
        Some (hset m (mloc A 0 0) (if add then kadd (m (mloc A 0 0)) temp else temp))
      else if isrm X then
        if isrm A then
          Some (upto N (fun i m => putprod add alpha (xxt ha X m) A i (S i) (fun _ => O) (fun i => S i) m) m)
        else
          Some (upto N (fun j m => putprod add alpha (xxt ha X m) A j N (fun _ => j) (fun _ => S j) m) m)
      else
        upto (ars X) (fun k om => match om with Some m => SRank1Update add alpha (mcol X k) (mkS A false ha) m | None => None end) (Some m)
    else
      let k := (N / 2)%nat in
      let k := if (bs <? k)%nat then (k / bs * bs)%nat else k in
      match RecRankK f bs bs2 ha add alpha (rrange X 0 k) (smx A 0 k 0 k) m with
      | None => None
      | Some m =>
        let m := putprod add alpha (xxt ha X m) A k N (fun _ => O) (fun _ => k) m in
        RecRankK f bs bs2 ha add alpha (rrange X k N) (smx A k N k N) m
      end
  end.

(** RecursiveInPlaceRankKUpdate, 145-211. *)
Fixpoint InPlaceRankK (fuel bs bs2 : nat) (ha add : bool) alpha X A m : option (hmem K) :=
  match fuel with
  | O => None
  | S f =>
    let N := acs A in
    if (N =? 1)%nat then
      let x00 := mget m X 0 0 in
      let temp := kmul alpha (kmul x00 (hc ha x00)) in
      Some (hset m (mloc A 0 0) (if add then kadd (m (mloc A 0 0)) temp else temp))
    else
      let k := (N / 2)%nat in
      let tempA10 := xxt ha (crange X 0 N) m in
      match InPlaceRankK f bs bs2 ha add alpha (smx X k N k N) (smx A k N k N) m with
      | None => None
      | Some m =>
      match RecRankK N bs bs2 ha true alpha (smx X k N 0 k) (smx A k N k N) m with
      | None => None
      | Some m =>
      match InPlaceRankK f bs bs2 ha add alpha (smx X 0 k 0 k) (smx A 0 k 0 k) m with
      | None => None
      | Some m =>
      match RecRankK N bs bs2 ha true alpha (smx X 0 k k N) (smx A 0 k 0 k) m with
      | None => None
      | Some m => Some (putprod add alpha tempA10 A k N (fun _ => O) (fun _ => k) m)
      end end end end
  end.

(** SameStorage, TMV_Base.h:244-250: the same first element. *)
Definition samestore X A : bool := leqb (mloc X 0 0) (mloc A 0 0).

(** NonBlasRankKUpdate, 248-292. *)
Fixpoint NonBlasRankK (fuel bs bs2 : nat) (add : bool) alpha X (S : smat) m : option (hmem K) :=
  match fuel with
  | O => None
  | Datatypes.S f =>
    let A := sa S in
    if sup S then NonBlasRankK f bs bs2 add alpha X (if issym S then strans S else sadj S) m
    else if acj A then NonBlasRankK f bs bs2 add (cj alpha) (mconj K X) (sconj S) m
    else if samestore X A then
      let N := acs A in
      let k := ars X in
      if (N <=? k)%nat then
        match InPlaceRankK N bs bs2 (isherm S) add alpha (crange X 0 N) A m with
        | None => None
        | Some m => if (N <? k)%nat then NonBlasRankK f bs bs2 add alpha (crange X N k) S m else Some m
        end
      else
        match NonBlasRankK f bs bs2 add alpha (rrange X k N) (mkS (smx A k N k N) false (sh S)) m with
        | None => None
        | Some m =>
          let m := putprod add alpha (xxt (isherm S) X m) A k N (fun _ => O) (fun _ => k) m in
          InPlaceRankK N bs bs2 (isherm S) add alpha (rrange X 0 k) (smx A 0 k 0 k) m
        end
    else RecRankK (acs A) bs bs2 (isherm S) add alpha X A m
  end.

(** RankKUpdate, 408-460. *)
Definition SRankKUpdate (bs bs2 : nat) (add : bool) alpha X (S : smat) m : option (hmem K) :=
  if negb (keqb alpha k0) && (0 <? acs X)%nat && (0 <? ars X)%nat then
    if (ars X =? 1)%nat then SRank1Update add alpha (mcol X 0) S m
    else NonBlasRankK 4 bs bs2 add alpha X S m
  else Some m.

(** Element (i,j), cref, TMV_SymMatrix.cpp:52-64. *)
Definition sget m (S : smat) (i j : nat) : K :=
  if (if sup S then i <=? j else j <=? i)%nat then mget m (sa S) i j
  else hc (isherm S) (mget m (sa S) j i).
End Model.
