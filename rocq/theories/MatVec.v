(** Rank-1 update and matrix times vector: src/TMV_Rank1_VVM.cpp and
    src/TMV_MultMV.cpp, the native (not BLAS) branches, all operands of element
    type T.  Whole-vector steps (setZero, alpha*x into a new Vector, y += alpha*yy)
    are single element-by-element loops here; their own code is modelled in
    VecOps.v (C10-C13). *)
From Coq Require Import ZArith Lia Bool List Ring Arith.
From Verif Require Import Base Scal MatMem.
Open Scope Z_scope.

Section Model.
Context {K : scal}.
Implicit Types (m : hmem K) (x y : vec) (A : mat) (alpha : K).

(** VectorView::setZero, MatrixView::setZero (TMV_Vector.cpp:881-890,
    TMV_Matrix.cpp:776-790). *)
Definition vzero y m : hmem K := upto (vs y) (fun i m => hset m (vloc y i) k0) m.
Definition mzero A m : hmem K :=
  upto (ars A) (fun j => upto (acs A) (fun i m => hset m (mloc A i j) k0)) m.

(** A new Vector of n elements: step 1, not conjugated (TMV_Vector.h:1480-1520). *)
Definition vtmp (b n : nat) : vec := mkVec b 0 n 1 false.
(** [Vector<T> xx = alpha*x;] in block b. *)
Definition vscale (b : nat) alpha x m : hmem K :=
  upto (vs x) (fun i m => hset m (vloc (vtmp b (vs x)) i) (kmul alpha (vget m x i))) m.
(** [if (add) y += alpha*yy; else y = alpha*yy;] for y not conjugated. *)
Definition vaxpy (add : bool) alpha yy y m : hmem K :=
  upto (vs y) (fun i m => hset m (vloc y i)
    (let t := kmul alpha (vget m yy i) in if add then kadd (m (vloc y i)) t else t)) m.
(** [if (add) y += yy; else y = yy;] *)
Definition vadd (add : bool) yy y m : hmem K :=
  upto (vs y) (fun i m => hset m (vloc y i)
    (let t := vget m yy i in if add then kadd (m (vloc y i)) t else t)) m.

(** ** Rank-1 update *)

(** ColRank1Update, TMV_Rank1_VVM.cpp:54-104.  x is walked with ++; [cm] makes the
    column step 1. *)
Definition ColRank1Update (cx cy cm add : bool) x y A m : hmem K :=
  let si := if cm then 1 else asi A in
  upto (ars A) (fun j m =>
    let yj := (vb y, vp y + Z.of_nat j * vst y) in
    let Acolj := ap A + Z.of_nat j * asj A in
    if negb (keqb (m yj) k0) then
      upto (acs A) (fun i m =>
        let Aij := (ab A, Acolj + Z.of_nat i * si) in
        let temp := kmul (cjif cx (m (vb x, vp x + Z.of_nat i))) (cjif cy (m yj)) in
        hset m Aij (if add then kadd (m Aij) temp else temp)) m
    else if negb add then
      upto (acs A) (fun i m => hset m (ab A, Acolj + Z.of_nat i * si) k0) m
    else m) m.

(** UnitARank1Update, 106-132. *)
Definition UnitARank1Update (cx add : bool) x y A m : hmem K :=
  if iscm A then
    if vcj y then ColRank1Update cx true true add x y A m
    else ColRank1Update cx false true add x y A m
  else
    if vcj y then ColRank1Update cx true false add x y A m
    else ColRank1Update cx false false add x y A m.

(** NonBlasRank1Update, 134-175; the copy of x or y is block 1. *)
Definition NonBlasRank1Update (add : bool) alpha x y A m : hmem K :=
  if negb (vst x =? 1) || negb (keqb alpha k1) then
    if (vst x =? 1) && (vs y <? vs x)%nat then
      let a := if kisreal alpha then kre alpha else alpha in
      let m := vscale 1 a y m in
      let yy := vtmp 1 (vs y) in
      if vcj x then UnitARank1Update true add x yy A m else UnitARank1Update false add x yy A m
    else
      let a := if kisreal alpha then kre alpha else alpha in
      let m := vscale 1 a x m in
      UnitARank1Update false add (vtmp 1 (vs x)) y A m
  else
    if vcj x then UnitARank1Update true add x y A m else UnitARank1Update false add x y A m.

(** Rank1Update, 625-690.  Without BLAS, BlasIsCM and BlasIsRM are iscm and isrm
    (TMV_Blas.h:725-741).  [None] is running out of fuel. *)
Fixpoint Rank1Update_fuel (fuel : nat) (add : bool) alpha x y A m : option (hmem K) :=
  match fuel with
  | O => None
  | S f =>
    if (0 <? acs A)%nat && (0 <? ars A)%nat then
      if keqb alpha k0 then
        if negb add then Some (mzero A m) else Some m
      else if acj A then
        Rank1Update_fuel f add (cj alpha) (vconj K x) (vconj K y) (mconj K A) m
      else if negb (iscm A) && isrm A then
        Rank1Update_fuel f add alpha y x (tr A) m
      else Some (NonBlasRank1Update add alpha x y A m)
    else Some m
  end.
Definition Rank1Update := Rank1Update_fuel 4.

(** ** Matrix times vector *)

(** RowMultMV, TMV_MultMV.cpp:79-121; y is walked with ++, and so is x. *)
Definition RowMultMV (add cx ca rm : bool) A x y m : hmem K :=
  let sj := if rm then 1 else asj A in
  upto (acs A) (fun i m =>
    let Ai0 := ap A + Z.of_nat i * asi A in
    let temp := sum (ars A) (fun j =>
      kmul (cjif cx (m (vb x, vp x + Z.of_nat j)))
           (cjif ca (m (ab A, Ai0 + Z.of_nat j * sj)))) in
    let yi := (vb y, vp y + Z.of_nat i) in
    hset m yi (if add then kadd (m yi) temp else temp)) m.

(** ColMultMV, 123-181. *)
Definition colstep (first cx ca : bool) (si : Z) (j : nat) A x y m : hmem K :=
  let A0j := ap A + Z.of_nat j * asj A in
  let xjval := cjif cx (m (vb x, vp x + Z.of_nat j)) in
  upto (acs A) (fun i m =>
    let yi := (vb y, vp y + Z.of_nat i) in
    let t := kmul xjval (cjif ca (m (ab A, A0j + Z.of_nat i * si))) in
    hset m yi (if first then t else kadd (m yi) t)) m.
Definition ColMultMV (add cx ca cm : bool) A x y m : hmem K :=
  let si := if cm then 1 else asi A in
  let m1 :=
    if negb add then
      if keqb (m (vb x, vp x)) k0 then vzero y m else colstep true cx ca si 0 A x y m
    else m in
  let j0 := if negb add then 1%nat else 0%nat in
  upto (ars A - j0) (fun k m =>
    let j := (j0 + k)%nat in
    if negb (keqb (m (vb x, vp x + Z.of_nat j)) k0) then colstep false cx ca si j A x y m
    else m) m1.

(** UnitAMultMV1, 183-220. *)
Definition UnitAMultMV1 (add cx : bool) A x y m : hmem K :=
  if isrm A then RowMultMV add cx (acj A) true A x y m
  else if iscm A then ColMultMV add cx (acj A) true A x y m
  else if (acs A <=? ars A)%nat then RowMultMV add cx (acj A) false A x y m
  else ColMultMV add cx (acj A) false A x y m.

(** The two scans of UnitAMultMV, 245-255: trailing and leading zeros of x. *)
Fixpoint scan_hi x m (n : nat) : nat :=
  match n with
  | O => O
  | S k => if keqb (m (vb x, vp x + Z.of_nat k)) k0 then scan_hi x m k else n
  end.
(** The second loop has no bound of its own; [fuel] only makes it total and is
    x.size(), which it cannot reach when some element is not zero. *)
Fixpoint scan_lo x m (fuel j : nat) : nat :=
  match fuel with
  | O => j
  | S f => if keqb (m (vb x, vp x + Z.of_nat j)) k0 then scan_lo x m f (j + 1) else j
  end.
(** colRange and subVector, TMV_Matrix.h:1545-1552, TMV_Vector.h:1003-1010. *)
Definition colRange A (j1 j2 : nat) : mat :=
  mkMat (ab A) (ap A + Z.of_nat j1 * asj A) (acs A) (j2 - j1) (asi A) (asj A) (acj A).
Definition subVector x (j1 j2 : nat) : vec :=
  mkVec (vb x) (vp x + Z.of_nat j1 * vst x) (j2 - j1) (vst x) (vcj x).
(** UnitAMultMV, 222-262. *)
Definition UnitAMultMV (add cx : bool) A x y m : hmem K :=
  let N := vs x in
  let j2 := scan_hi x m N in
  if (j2 =? 0)%nat then (if negb add then vzero y m else m)
  else
    let j1 := scan_lo x m N 0 in
    if (j1 =? 0)%nat && (j2 =? N)%nat then UnitAMultMV1 add cx A x y m
    else UnitAMultMV1 add cx (colRange A j1 j2) (subVector x j1 j2) y m.

(** SameStorage, TMV_Base.h:244-251. *)
Definition sameVV x y : bool := Nat.eqb (vb x) (vb y) && (vp x =? vp y).

(** NonBlasMultMV, 298-377; xx is block 1, yy is block 2. *)
Definition NonBlasMultMV (add : bool) alpha A x y m : hmem K :=
  let M := acs A in
  let N := ars A in
  if negb (vst x =? 1) || sameVV x y
     || (negb (keqb alpha k1) && (vst y =? 1) && (N <=? M / 4)%nat) then
    let a := if kisreal alpha then kre alpha else alpha in
    let m := vscale 1 a x m in
    let xx := vtmp 1 (vs x) in
    if negb (vst y =? 1) then
      let yy := vtmp 2 (vs y) in
      let m := UnitAMultMV false false A xx yy m in
      vadd add yy y m
    else UnitAMultMV add false A xx y m
  else if negb (vst y =? 1) || negb (keqb alpha k1) then
    let yy := vtmp 2 (vs y) in
    let m := UnitAMultMV false (vcj x) A x yy m in
    vaxpy add alpha yy y m
  else UnitAMultMV add (vcj x) A x y m.

(** MultMV, 1134-1170; DoMultMV without BLAS is NonBlasMultMV (1041-1130). *)
Definition MultMV (add : bool) alpha A x y m : hmem K :=
  if (0 <? vs y)%nat then
    if (vs x =? 0)%nat || keqb alpha k0 then (if negb add then vzero y m else m)
    else if vcj y then
      NonBlasMultMV add (cj alpha) (mconj K A) (vconj K x) (vconj K y) m
    else NonBlasMultMV add alpha A x y m
  else m.
End Model.
