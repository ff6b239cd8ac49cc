(** Matrix times matrix: src/TMV_MultMM.cpp, TMV_MultMM_CCC.cpp, _CRC.cpp,
    _RCC.cpp, _Block.cpp, the native branch without OpenMP, all operands of
    element type T.  Whole-matrix steps (setZero, alpha*A into a new Matrix,
    C += alpha*C2) are single element-by-element loops.
    Blocks: 0 the user's, 1 A2, 2 B2, 3 C2, 4 B1, 5 Ctemp, 6 A_temp, 7 B_temp,
    8 C_temp; no two live temporaries of a call share a number. *)
From Coq Require Import ZArith Lia Bool List Ring Arith.
From Verif Require Import Base Scal ScalC MatMem MatVec.
Import ListNotations.
Open Scope Z_scope.

(** p + z. *)
Definition poff (l : loc) (z : Z) : loc := (fst l, snd l + z).
Notation "p +! z" := (poff p z) (at level 50, left associativity).

Section Model.
Context {K : scal}.
Implicit Types (m : hmem K) (A B C : mat) (alpha : K).

(** A new Matrix<T,ColMajor>(M,N): TMV_Matrix.h:2050-2075. *)
Definition mtmp (b M N : nat) : mat := mkMat b 0 M N 1 (Z.of_nat M) false.
(** [Matrix<T,ColMajor> X = alpha*A;] in block b; without alpha, [X = A]. *)
Definition mscale (b : nat) alpha A m : hmem K :=
  upto (ars A) (fun j => upto (acs A) (fun i m =>
    hset m (mloc (mtmp b (acs A) (ars A)) i j) (kmul alpha (mget m A i j)))) m.
Definition mcopy (b : nat) A m : hmem K :=
  upto (ars A) (fun j => upto (acs A) (fun i m =>
    hset m (mloc (mtmp b (acs A) (ars A)) i j) (mget m A i j))) m.
(** [if (add) C += alpha*X; else C = alpha*X;] for C not conjugated. *)
Definition maxpy (add : bool) alpha X C m : hmem K :=
  upto (ars C) (fun j => upto (acs C) (fun i m =>
    hset m (mloc C i j) (let t := kmul alpha (mget m X i j) in
                         if add then kadd (m (mloc C i j)) t else t))) m.
(** [if (add) C += X; else C = X;] *)
Definition madd (add : bool) X C m : hmem K :=
  upto (ars C) (fun j => upto (acs C) (fun i m =>
    hset m (mloc C i j) (let t := mget m X i j in
                         if add then kadd (m (mloc C i j)) t else t))) m.
(** [X *= alpha;] *)
Definition mtimes alpha X m : hmem K :=
  upto (ars X) (fun j => upto (acs X) (fun i m =>
    hset m (mloc X i j) (kmul alpha (m (mloc X i j))))) m.

(** ** The simple algorithms *)

(** ColMult, TMV_MultMM_CCC.cpp:32-64, TMV_MultMM_CRC.cpp:32-63: eight at a time,
    then 4, 2, 1. *)
Definition cmstep (ca : bool) (b00 : K) (A C : loc) (i : nat) m : hmem K :=
  hset m (C +! Z.of_nat i) (kadd (m (C +! Z.of_nat i)) (kmul (cjif ca (m (A +! Z.of_nat i))) b00)).
Definition ColMult (ca : bool) (M : nat) (b00 : K) (A C : loc) m : hmem K :=
  let step (o : nat) := fun i => cmstep ca b00 A C (o + i) in
  let m := upto (M / 8) (fun t => upto 8 (step (8 * t)%nat)) m in
  let o := (8 * (M / 8))%nat in
  let M := (M mod 8)%nat in
  let '(m, o, M) := if (4 <=? M)%nat then (upto 4 (step o) m, (o + 4)%nat, (M - 4)%nat) else (m, o, M) in
  let '(m, o, M) := if (2 <=? M)%nat then (upto 2 (step o) m, (o + 2)%nat, (M - 2)%nat) else (m, o, M) in
  if (0 <? M)%nat then upto 1 (step o) m else m.

(** RecursiveCCCMultMM, CCC.cpp:66-86, and RecursiveCRCMultMM, CRC.cpp:65-84.  The
    two differ in which step of B is the literal 1: Bsk for CCC, Bsj for CRC. *)
Fixpoint RecCxC (fuel : nat) (ca cb : bool) (M N k : nat) (A B C : loc)
    (Ask Bsk Bsj Csj : Z) m : option (hmem K) :=
  match fuel with
  | O => None
  | S f =>
    if (N <? k)%nat then
      let K1 := (k / 2)%nat in
      match RecCxC f ca cb M N K1 A B C Ask Bsk Bsj Csj m with
      | None => None
      | Some m => RecCxC f ca cb M N (k - K1) (A +! Z.of_nat K1 * Ask) (B +! Z.of_nat K1 * Bsk) C
                    Ask Bsk Bsj Csj m
      end
    else if (1 <? N)%nat then
      let N1 := (N / 2)%nat in
      match RecCxC f ca cb M N1 k A B C Ask Bsk Bsj Csj m with
      | None => None
      | Some m => RecCxC f ca cb M (N - N1) k A (B +! Z.of_nat N1 * Bsj) (C +! Z.of_nat N1 * Csj)
                    Ask Bsk Bsj Csj m
      end
    else Some (ColMult ca M (cjif cb (m B)) A C m)
  end.

(** RCCMultMM11 … RCCMultMM44, RCC.cpp:32-626, sixteen unrolled versions of one
    loop: M, N <= 4 accumulators, k from K-1 down to 0, then C[i+j*Csj] += c_ij. *)
Definition RCCtile (ca cb : bool) (M N k : nat) (A B C : loc) (Asi Bsj Csj : Z) m : hmem K :=
  let acc i j := upto k (fun t c =>
    let kk := (k - 1 - t)%nat in
    kadd c (kmul (cjif ca (m (A +! (Z.of_nat i * Asi + Z.of_nat kk))))
                 (cjif cb (m (B +! (Z.of_nat j * Bsj + Z.of_nat kk)))))) k0 in
  upto N (fun j => upto M (fun i m' =>
    let c := C +! (Z.of_nat i + Z.of_nat j * Csj) in
    hset m' c (kadd (m' c) (acc i j)))) m.

(** RecursiveRCCMultMM, RCC.cpp:628-680.  A tile with M or N outside 1..4 falls to
    the last branch of its chain of tests, as there. *)
Definition clip4 (n : nat) : nat :=
  if Nat.eqb n 4 then 4%nat else if Nat.eqb n 3 then 3%nat else if Nat.eqb n 2 then 2%nat else 1%nat.
Fixpoint RecRCC (fuel : nat) (ca cb : bool) (M N k : nat) (A B C : loc)
    (Asi Bsj Csj : Z) m : option (hmem K) :=
  match fuel with
  | O => None
  | S f =>
    if (N <? M)%nat && (4 <? M)%nat then
      let M1 := (M / 2)%nat in
      match RecRCC f ca cb M1 N k A B C Asi Bsj Csj m with
      | None => None
      | Some m => RecRCC f ca cb (M - M1) N k (A +! Z.of_nat M1 * Asi) B (C +! Z.of_nat M1) Asi Bsj Csj m
      end
    else if (4 <? N)%nat then
      let N1 := (N / 2)%nat in
      match RecRCC f ca cb M N1 k A B C Asi Bsj Csj m with
      | None => None
      | Some m => RecRCC f ca cb M (N - N1) k A (B +! Z.of_nat N1 * Bsj) (C +! Z.of_nat N1 * Csj)
                    Asi Bsj Csj m
      end
    else Some (RCCtile ca cb (clip4 M) (clip4 N) k A B C Asi Bsj Csj m)
  end.

Definition mptr (A : mat) : loc := (ab A, ap A).

(** DoCCCMultMM, CCC.cpp:88-122, DoCRCMultMM, CRC.cpp:86-120, DoRCCMultMM,
    RCC.cpp:682-717, with the dispatch on isconj.  [rec] fills Ctemp. *)
Definition DoSimple (rec : loc -> Z -> hmem K -> option (hmem K)) (add : bool) alpha C m : option (hmem K) :=
  let Ct := mtmp 5 (acs C) (ars C) in
  match rec (mptr Ct) (asj Ct) (mzero Ct m) with
  | None => None
  | Some m =>
    let m := if negb (keqb alpha k1) then mtimes alpha Ct m else m in
    Some (madd add Ct C m)
  end.
Definition CCCMultMM (add : bool) alpha A B C m : option (hmem K) :=
  DoSimple (fun Ct sj => RecCxC (ars C + ars A) (acj A) (acj B) (acs C) (ars C) (ars A)
                           (mptr A) (mptr B) Ct (asj A) 1 (asj B) sj) add alpha C m.
Definition CRCMultMM (add : bool) alpha A B C m : option (hmem K) :=
  DoSimple (fun Ct sj => RecCxC (ars C + ars A) (acj A) (acj B) (acs C) (ars C) (ars A)
                           (mptr A) (mptr B) Ct (asj A) (asi B) 1 sj) add alpha C m.
Definition RCCMultMM (add : bool) alpha A B C m : option (hmem K) :=
  DoSimple (fun Ct sj => RecRCC (acs C + ars C) (acj A) (acj B) (acs C) (ars C) (ars A)
                           (mptr A) (mptr B) Ct (asi A) (asj B) sj) add alpha C m.

(** ** The blocked algorithm *)

(** What the kernels call_multmm_… of TMV_MultMM_Kernel.h are for:
    C[i+j*M] += sum_k A[i*rnd(K)+k] * B[j*rnd(K)+k] on the packed arrays; their
    unrolled and SSE code is not modelled. *)
Definition kernel (rnd : nat -> nat) (M N k : nat) (Ap Bp : Z) m : hmem K :=
  upto N (fun j => upto M (fun i m =>
    let c := (8%nat, Z.of_nat (i + j * M)) in
    hset m c (kadd (m c) (sum k (fun q =>
      kmul (m (6%nat, Ap + Z.of_nat (i * rnd k + q)))
           (m (7%nat, Bp + Z.of_nat (j * rnd k + q)))))))) m.

(** [Ax = A.subMatrix(i1,i2,k1,k2)] and [Bx = B.subMatrix(k1,k2,j1,j2)] into the
    packed arrays, SingleBlockMultMM, Block.cpp:64-70, 76-84.  pa and pb read the
    real or imaginary part of a cell, or the cell itself if T is real. *)
Definition packA (pa : K -> K) (st : nat) A (i1 k1 M k : nat) (Ap : Z) m : hmem K :=
  upto k (fun q => upto M (fun i m =>
    hset m (6%nat, Ap + Z.of_nat (i * st + q)) (pa (m (mloc A (i1 + i) (k1 + q)))))) m.
Definition packB (pb : K -> K) (st : nat) B (k1 j1 k N : nat) (Bp : Z) m : hmem K :=
  upto N (fun j => upto k (fun q m =>
    hset m (7%nat, Bp + Z.of_nat (j * st + q)) (pb (m (mloc B (k1 + q) (j1 + j)))))) m.

(** SingleBlockMultMM, Block.cpp:35-98.  [upd c s] is the new value of the cell c
    of C when the block product is s: it holds [add], x, and which part of the cell
    C is a view of. *)
Definition SingleBlock (KB : nat) (rnd : nat -> nat) (pa pb : K -> K) (upd : K -> K -> K) A B C
    (i1 j1 MB NB size1 size2 : nat) (Ap Bp : Z) (firstA firstB : bool) m : hmem K :=
  let k := ars A in
  let Kb := (k / KB)%nat in
  let Kc := (k - Kb * KB)%nat in
  let m := upto 256 (fun i m => hset m (8%nat, Z.of_nat i) k0) m in
  let m := upto Kb (fun t m =>
    let Ap := Ap + Z.of_nat (t * size1) in
    let Bp := Bp + Z.of_nat (t * size2) in
    let m := if firstA then packA pa KB A i1 (t * KB) MB KB Ap m else m in
    let m := if firstB then packB pb KB B (t * KB) j1 KB NB Bp m else m in
    kernel rnd MB NB KB Ap Bp m) m in
  let m :=
    if (0 <? Kc)%nat then
      let Ap := Ap + Z.of_nat (Kb * size1) in
      let Bp := Bp + Z.of_nat (Kb * size2) in
      let m := if firstA then packA pa (rnd Kc) A i1 (Kb * KB) MB Kc Ap m else m in
      let m := if firstB then packB pb (rnd Kc) B (Kb * KB) j1 Kc NB Bp m else m in
      kernel rnd MB NB Kc Ap Bp m
    else m in
  upto NB (fun j => upto MB (fun i m =>
    hset m (mloc C (i1 + i) (j1 + j))
      (upd (m (mloc C (i1 + i) (j1 + j))) (m (8%nat, Z.of_nat (i + j * MB)))))) m.

(** DoBlockMultMM, Block.cpp:172-326.  KB and rnd (RoundUp) are 16 and the identity
    for a generic type; 32, 64 and rounding up to 2 or 4 with SSE.
    [blockcol]: the loop over i and the rest Mc, 227-250 and 252-275, for NB columns
    from j1; [blockrow]: the same with rows and columns exchanged, 285-325. *)
Definition Ktot (KB : nat) (rnd : nat -> nat) (k : nat) : nat := (k / KB * KB + rnd (k - k / KB * KB))%nat.
Definition blockcol (KB : nat) (rnd : nat -> nat) (pa pb : K -> K) (upd : K -> K -> K) A B C
    (j1 NB size2 : nat) (firstA : bool) m : hmem K :=
  let M := acs C in
  let Mb := (M / 16)%nat in
  let Ma := (Mb * 16)%nat in
  let Mc := (M - Ma)%nat in
  let fullsize1 := (16 * Ktot KB rnd (ars A))%nat in
  let single := SingleBlock KB rnd pa pb upd A B C in
  let m := upto Mb (fun i =>
    single (i * 16)%nat j1 16%nat NB (16 * KB)%nat size2 (Z.of_nat (i * fullsize1)) 0
      firstA (Nat.eqb i 0)) m in
  if (0 <? Mc)%nat then
    single Ma j1 Mc NB (Mc * KB)%nat size2 (Z.of_nat (Mb * fullsize1)) 0 firstA (Nat.eqb Mb 0) m
  else m.
Definition blockrow (KB : nat) (rnd : nat -> nat) (pa pb : K -> K) (upd : K -> K -> K) A B C
    (i1 MB size1 : nat) (firstB : bool) m : hmem K :=
  let N := ars C in
  let Nb := (N / 16)%nat in
  let Na := (Nb * 16)%nat in
  let Nc := (N - Na)%nat in
  let fullsize2 := (16 * Ktot KB rnd (ars A))%nat in
  let single := SingleBlock KB rnd pa pb upd A B C in
  let m := upto Nb (fun j =>
    single i1 (j * 16)%nat MB 16%nat size1 (16 * KB)%nat 0 (Z.of_nat (j * fullsize2))
      (Nat.eqb j 0) firstB) m in
  if (0 <? Nc)%nat then
    single i1 Na MB Nc size1 (Nc * KB)%nat 0 (Z.of_nat (Nb * fullsize2)) (Nat.eqb Nb 0) firstB m
  else m.
Definition DoBlock (KB : nat) (rnd : nat -> nat) (pa pb : K -> K) (upd : K -> K -> K) A B C m : hmem K :=
  let M := acs C in let N := ars C in
  let Mb := (M / 16)%nat in let Nb := (N / 16)%nat in
  let Ma := (Mb * 16)%nat in let Na := (Nb * 16)%nat in
  let Mc := (M - Ma)%nat in let Nc := (N - Na)%nat in
  if (M <=? N)%nat then
    let col := blockcol KB rnd pa pb upd A B C in
    let m := upto Nb (fun j => col (j * 16)%nat 16%nat (16 * KB)%nat (Nat.eqb j 0)) m in
    if (0 <? Nc)%nat then col Na Nc (Nc * KB)%nat (Nat.eqb Nb 0) m else m
  else
    let row := blockrow KB rnd pa pb upd A B C in
    let m := upto Mb (fun i => row (i * 16)%nat 16%nat (16 * KB)%nat (Nat.eqb i 0)) m in
    if (0 <? Mc)%nat then row Ma Mc (Mc * KB)%nat (Nat.eqb Mb 0) m else m.

(** ** Dispatch *)
Section Dispatch.
(** The calls of the real DoBlockMultMM that DoBlockMultMM(add,x,A,B,C) makes for
    element type T, in order, and whether the three allocations with which the
    q-th of them begins succeed. *)
Variable calls : bool -> K -> mat -> mat -> mat -> list (hmem K -> hmem K).
Variable alloc : nat -> bool.

(** The calls up to the one that throws bad_alloc; false if one did. *)
Fixpoint run_calls (q : nat) (fs : list (hmem K -> hmem K)) m : hmem K * bool :=
  match fs with
  | [] => (m, true)
  | f :: fs => if alloc q then run_calls (S q) fs (f m) else (m, false)
  end.

(** colRange for a matrix, TMV_Matrix.h:1545-1552. *)
Definition mcols A (j1 j2 : nat) : mat :=
  mkMat (ab A) (ap A + Z.of_nat j1 * asj A) (acs A) (j2 - j1) (asi A) (asj A) (acj A).

(** The slices of 16 columns, Block.cpp:425-436: [for (j2=16;j2<N;j1=j2,j2+=16)]
    runs (N-1)/16 times; B1 is block 4. *)
Definition slice add alpha A B C (j1 j2 : nat) m : option (hmem K) :=
  let m := upto (j2 - j1) (fun j => upto (acs B) (fun i m =>
    hset m (4%nat, Z.of_nat i + Z.of_nat j * Z.of_nat (acs B)) (mget m B i (j1 + j)))) m in
  RCCMultMM add alpha A (mkMat 4 0 (acs B) (j2 - j1) 1 (Z.of_nat (acs B)) false) (mcols C j1 j2) m.
Definition obind {S} (x : option S) (f : S -> option S) : option S :=
  match x with None => None | Some m => f m end.
Definition slices add alpha A B C m : option (hmem K) :=
  let n := ((ars B - 1) / 16)%nat in
  obind (upto n (fun t om => obind om (slice add alpha A B C (16 * t) (16 * (t + 1)))) (Some m))
    (slice add alpha A B C (16 * n) (ars B)).

(** BlockMultMM, Block.cpp:384-441. *)
Definition BlockMultMM (add : bool) alpha A B C m : option (hmem K) :=
  match run_calls 0 (calls add alpha A B C) m with
  | (m, true) => Some m
  | (m, false) =>
    if iscm A then
      if iscm B then CCCMultMM add alpha A B C m else CRCMultMM add alpha A B C m
    else if iscm B then RCCMultMM add alpha A B C m
    else if (16 <? ars B)%nat then slices add alpha A B C m
    else RCCMultMM add alpha A (mtmp 4 (acs B) (ars B)) C (mcopy 4 B m)
  end.

(** NonBlasMultMM, TMV_MultMM.cpp:46-103: when the simple algorithms are used. *)
Definition small (M N k : nat) : bool :=
  let big n := negb (Nat.eqb (n / 64) 0) in
  let c n := if (n <? 16)%nat then 1%nat else (n / 16)%nat in
  let twobig := (big M && big N) || (big M && big k) || (big N && big k) in
  ((M <? 16)%nat && (N <? 16)%nat && (k <? 16)%nat) ||
  ((M <=? 3)%nat || (N <=? 3)%nat || (k <=? 3)%nat) ||
  (((M <? 16)%nat || (N <? 16)%nat || (k <? 16)%nat) &&
   (negb twobig || (c M * c N * c k <? 4)%nat)).
Definition NonBlasMultMM (add : bool) alpha A B C m : option (hmem K) :=
  if small (acs C) (ars C) (ars A) then
    if iscm A then
      if iscm B then CCCMultMM add alpha A B C m else CRCMultMM add alpha A B C m
    else
      if iscm B then RCCMultMM add alpha A B C m
      else RCCMultMM add alpha A (mtmp 4 (acs B) (ars B)) C (mcopy 4 B m)
  else BlockMultMM add alpha A B C m.

(** SameStorage, TMV_Base.h:244-251. *)
Definition sameMM (A B : mat) : bool := leqb (mptr A) (mptr B).

(** MultMM, TMV_MultMM.cpp:400-450. *)
Fixpoint MultMM_fuel (fuel : nat) (add : bool) alpha A B C m : option (hmem K) :=
  match fuel with
  | O => None
  | S f =>
    if (0 <? acs C)%nat && (0 <? ars C)%nat then
      if Nat.eqb (ars A) 0 || keqb alpha k0 then
        Some (if negb add then mzero C m else m)
      else if acj C then
        MultMM_fuel f add (cj alpha) (mconj K A) (mconj K B) (mconj K C) m
      else if iscm C then
        if negb (sameMM A C) && (iscm A || isrm A) then
          if negb (sameMM B C) && (iscm B || isrm B) then
            NonBlasMultMM add alpha A B C m
          else
            NonBlasMultMM add k1 A (mtmp 2 (acs B) (ars B)) C (mscale 2 alpha B m)
        else
          MultMM_fuel f add k1 (mtmp 1 (acs A) (ars A)) B C (mscale 1 alpha A m)
      else if isrm C then
        MultMM_fuel f add alpha (tr B) (tr A) (tr C) m
      else
        let C2 := mtmp 3 (acs C) (ars C) in
        match MultMM_fuel f false k1 A B C2 m with
        | None => None
        | Some m => Some (maxpy add alpha C2 C m)
        end
    else Some m
  end.
Definition MultMM := MultMM_fuel 4.
End Dispatch.

(** DoBlockMultMM for a real type: one call. *)
Definition updx (add : bool) (x c s : K) : K := if add then kadd c (kmul x s) else kmul x s.
Definition calls_real (KB : nat) (rnd : nat -> nat) (add : bool) (x : K) A B C :
  list (hmem K -> hmem K) :=
  [DoBlock KB rnd (fun a => a) (fun b => b) (updx add x) A B C].
End Model.

(** DoBlockMultMM for complex A, B and C, Block.cpp:358-382.  realPart() and
    imagPart() are the two halves of a cell. *)
Section Complex.
Variable R : scal.
Let T := scalC R.
Implicit Types (m : hmem T) (A B C : mat).

Definition rpart (a : T) : T := (fst a, k0).
Definition ipart (a : T) : T := (snd a, k0).
(** C.realPart() or C.imagPart() (+)= x * s, x and s real. *)
Definition updre (add : bool) (x : R) (c s : T) : T :=
  (if add then kadd (fst c) (kmul x (fst s)) else kmul x (fst s), snd c).
Definition updim (add : bool) (x : R) (c s : T) : T :=
  (fst c, if add then kadd (snd c) (kmul x (fst s)) else kmul x (fst s)).
Definition calls_cplx (KB : nat) (rnd : nat -> nat) (add : bool) (x : T) A B C :
  list (hmem T -> hmem T) :=
  let blk pa pb upd := DoBlock KB rnd pa pb upd A B C in
  let Ac := acj A in let Bc := acj B in
  if kisreal x then
    let xr := fst x in
    let neg (b : bool) := if b then kopp xr else xr in
    [blk rpart rpart (updre add xr);
     blk ipart ipart (updre true (neg (Bool.eqb Ac Bc)));
     blk rpart ipart (updim add (neg Bc));
     blk ipart rpart (updim true (neg Ac))]
  else
    let ix := kmul ((k0, k1) : T) x in
    let neg (b : bool) (y : T) := if b then kopp y else y in
    [blk rpart rpart (updx add x);
     blk ipart ipart (updx true (neg (Bool.eqb Ac Bc) x));
     blk rpart ipart (updx true (neg Bc ix));
     blk ipart rpart (updx true (neg Ac ix))].
End Complex.
