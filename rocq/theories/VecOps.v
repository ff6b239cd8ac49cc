(** Vector modifiers, copying, scaling and adding (src/TMV_Vector.cpp,
    src/TMV_MultXV.cpp, src/TMV_AddVV.cpp, include/tmv/TMV_Vector.h): loops over
    one memory.  A memory is a total function from element addresses to values;
    that the addresses used lie inside an allocation is C09.  The native (not
    BLAS/LAPACK) branches are modelled, operands all have element type T.  Loop
    counters run on nat; a pointer is a Z. *)
From Coq Require Import ZArith Lia Bool List Ring.
From Verif Require Import Base Scal VecView.
Import ListNotations.
Open Scope Z_scope.

Definition mem (K : scal) := Z -> K.
Definition set {K : scal} (m : mem K) (a : Z) (x : K) : mem K :=
  fun b => if b =? a then x else m b.

Definition vn (v : view) : nat := Z.to_nat (vsize v).

(** [for(i=n;i>0;--i,p+=s) *p = f( *p);] *)
Fixpoint map_loop {K : scal} (f : K -> K) (n : nat) (p s : Z) (m : mem K) : mem K :=
  match n with
  | O => m
  | S k => map_loop f k (p + s) s (set m p (f (m p)))
  end.

(** [for(i=n;i>0;--i,p1+=s1,p2+=s2) *p2 = f( *p1, *p2);] *)
Fixpoint zip_loop {K : scal} (f : K -> K -> K) (n : nat) (p1 s1 p2 s2 : Z) (m : mem K) : mem K :=
  match n with
  | O => m
  | S k => zip_loop f k (p1 + s1) s1 (p2 + s2) s2 (set m p2 (f (m p1) (m p2)))
  end.

(** The step-1 versions unrolled by four with a remainder loop, as in
    TMV_MultXV.cpp:58-78,180-198 and TMV_AddVV.cpp:64-132. *)
Fixpoint map_loop4 {K : scal} (f : K -> K) (n1 : nat) (p : Z) (m : mem K) : mem K :=
  match n1 with
  | O => m
  | S k =>
    let m := set m p (f (m p)) in
    let m := set m (p + 1) (f (m (p + 1))) in
    let m := set m (p + 2) (f (m (p + 2))) in
    let m := set m (p + 3) (f (m (p + 3))) in
    map_loop4 f k (p + 4) m
  end.
Definition map_unrolled {K : scal} (f : K -> K) (n : nat) (p : Z) (m : mem K) : mem K :=
  let n1 := Nat.div n 4 in
  let n2 := (n - 4 * n1)%nat in
  map_loop f n2 (p + 4 * Z.of_nat n1) 1 (map_loop4 f n1 p m).
Fixpoint zip_loop4 {K : scal} (f : K -> K -> K) (n1 : nat) (p1 p2 : Z) (m : mem K) : mem K :=
  match n1 with
  | O => m
  | S k =>
    let m := set m p2 (f (m p1) (m p2)) in
    let m := set m (p2 + 1) (f (m (p1 + 1)) (m (p2 + 1))) in
    let m := set m (p2 + 2) (f (m (p1 + 2)) (m (p2 + 2))) in
    let m := set m (p2 + 3) (f (m (p1 + 3)) (m (p2 + 3))) in
    zip_loop4 f k (p1 + 4) (p2 + 4) m
  end.
Definition zip_unrolled {K : scal} (f : K -> K -> K) (n : nat) (p1 p2 : Z) (m : mem K) : mem K :=
  let n1 := Nat.div n 4 in
  let n2 := (n - 4 * n1)%nat in
  zip_loop f n2 (p1 + 4 * Z.of_nat n1) 1 (p2 + 4 * Z.of_nat n1) 1 (zip_loop4 f n1 p1 p2 m).

Section Ops.
Context {K : scal}.
Implicit Types (m : mem K) (v : view) (x : K).

(** setAllTo, TMV_Vector.cpp:928-963.  std::fill_n at step 1 ignores conj. *)
Definition set_all_to_pos v x m : mem K :=
  if vstep v =? 0 then set m (vptr v) x
  else if vstep v =? 1 then map_loop (fun _ => x) (vn v) (vptr v) 1 m
  else if vconj v then map_loop (fun _ => cj x) (vn v) (vptr v) (vstep v) m
  else map_loop (fun _ => x) (vn v) (vptr v) (vstep v) m.
Definition set_all_to v x m : mem K :=
  if vstep v <? 0 then set_all_to_pos (v_reverse v) x m else set_all_to_pos v x m.

(** setZero, TMV_Vector.cpp:868-874. *)
Definition set_zero v m : mem K :=
  if vstep v =? 1 then map_loop (fun _ => k0) (vn v) (vptr v) 1 m else set_all_to v k0 m.

(** clip(thresh), TMV_Vector.cpp:883-906; [small] is [TMV_ABS(x) < thresh]. *)
Definition clip_pos (small : K -> bool) v m : mem K :=
  let f := fun y => if small y then k0 else y in
  if vstep v =? 0 then set m (vptr v) (f (m (vptr v)))
  else map_loop f (vn v) (vptr v) (vstep v) m.
Definition clip small v m : mem K :=
  if vstep v <? 0 then clip_pos small (v_reverse v) m else clip_pos small v m.

(** addToAll, TMV_Vector.cpp:972-998. *)
Definition add_to_all_pos v x m : mem K :=
  if vstep v =? 0 then set m (vptr v) (kadd (m (vptr v)) x)
  else if vconj v then map_loop (fun y => kadd y (cj x)) (vn v) (vptr v) (vstep v) m
  else map_loop (fun y => kadd y x) (vn v) (vptr v) (vstep v) m.
Definition add_to_all v x m : mem K :=
  if vstep v <? 0 then add_to_all_pos (v_reverse v) x m else add_to_all_pos v x m.

(** conjugateSelf / NonLapConjugate, TMV_Vector.cpp:1008-1064.  Negating the
    second word of an element is [cj]; for real T it does nothing. *)
Definition conjugate_self_pos v m : mem K :=
  if kcplx K then
    if vstep v =? 1 then map_loop cj (vn v) (vptr v) 1 m
    else if vstep v =? 0 then set m (vptr v) (cj (m (vptr v)))
    else map_loop cj (vn v) (vptr v) (vstep v) m
  else m.
Definition conjugate_self v m : mem K :=
  if vstep v <? 0 then conjugate_self_pos (v_reverse v) m else conjugate_self_pos v m.

(** makeBasis(i) / DoBasis, TMV_Vector.h:947-949, TMV_Vector.cpp:1074-1082; [ref]
    writes through the conjugation (VarConjRef). *)
Definition make_basis v (i : Z) m : outcome (mem K) :=
  if (0 <=? i) && (i <? vsize v) then
    Ok (set (set_zero v m) (addr v i) (if vconj v then cj k1 else k1))
  else Throw FailedAssert.

(** swap(i1,i2) / DoSwap of a view, TMV_Vector.h:951-957, TMV_Vector.cpp:1099-1111. *)
Definition do_swap v (i1 i2 : Z) m : mem K :=
  if i1 =? i2 then m
  else let a := addr v i1 in let b := addr v i2 in
       let t := m a in set (set m a (m b)) b t.
Definition v_swap v (i1 i2 : Z) m : outcome (mem K) :=
  if (0 <=? i1) && (i1 <? vsize v) && ((0 <=? i2) && (i2 <? vsize v))
  then Ok (do_swap v i1 i2 m) else Throw FailedAssert.

(** Vector<T,FortranStyle>::swap and its DoSwap, TMV_Vector.h:1690-1697,
    TMV_Vector.cpp:1113-1123: DoSwap tests [i1 < size()] for both index styles. *)
Definition vec_swap_f (n i1 i2 : Z) m : outcome (mem K) :=
  if (0 <? i1) && (i1 <=? n) && ((0 <? i2) && (i2 <=? n)) then
    if (i1 <? n) && (i2 <? n) then
      if i1 =? i2 then Ok m
      else let a := i1 - 1 in let b := i2 - 1 in
           let t := m a in Ok (set (set m a (m b)) b t)
    else Throw FailedAssert
  else Throw FailedAssert.

(** permute(p,i1,i2), reversePermute(p,i1,i2), TMV_Vector.h:959-975,
    TMV_Vector.cpp:1125-1145.  DoSwap's own checks on p[i]: the lower bound is
    not tested there, so a negative entry is undefined behaviour. *)
Definition swap_checked v (i j : Z) m : outcome (mem K) :=
  if (i <? vsize v) && (j <? vsize v) then
    if (0 <=? i) && (0 <=? j) then Ok (do_swap v i j m) else UB
  else Throw FailedAssert.
Definition permute v (p : Z -> Z) (i1 i2 : Z) m : outcome (mem K) :=
  if (0 <=? i1) && (i1 <=? i2) && (i2 <=? vsize v) then
    for_up (Z.to_nat (i2 - i1)) (Z.to_nat i1)
      (fun i m => swap_checked v (Z.of_nat i) (p (Z.of_nat i)) m) m
  else Throw FailedAssert.
Definition reverse_permute v (p : Z -> Z) (i1 i2 : Z) m : outcome (mem K) :=
  if (0 <=? i1) && (i1 <=? i2) && (i2 <=? vsize v) then
    for_down (Z.to_nat (i2 - i1)) (Z.to_nat i1)
      (fun i m => swap_checked v (Z.of_nat i) (p (Z.of_nat i)) m) m
  else Throw FailedAssert.

(** reverseSelf, TMV_Vector.cpp:1147-1160: two pointers walking towards each
    other; [None] is running out of fuel. *)
Fixpoint rev_loop (fuel : nat) (p1 p2 s : Z) m : option (mem K) :=
  if p1 <? p2 then
    match fuel with
    | O => None
    | S k => let t := m p1 in rev_loop k (p1 + s) (p2 - s) s (set (set m p1 (m p2)) p2 t)
    end
  else Some m.
Definition reverse_self_pos v m : option (mem K) :=
  if 0 <? vstep v then rev_loop (vn v) (vptr v) (vptr v + vstep v * (vsize v - 1)) (vstep v) m
  else Some m.
Definition reverse_self v m : option (mem K) :=
  if vstep v <? 0 then reverse_self_pos (v_reverse v) m else reverse_self_pos v m.

(** isSameAs, TMV_Vector.h:391-397. *)
Definition same_as v1 v2 : bool :=
  (vptr v1 =? vptr v2) && (vsize v1 =? vsize v2) && (vstep v1 =? vstep v2)
  && Bool.eqb (vconj v1) (vconj v2).
(** SameStorage, TMV_Base.h:239-251, both operands of type T. *)
Definition same_storage v1 v2 : bool := vptr v1 =? vptr v2.

(** shouldReverse, TMV_Vector.h:1985-1989. *)
Definition should_reverse (s1 s2 : Z) : bool :=
  ((s2 <? 0) && (negb (s1 =? 1) || (s2 =? -1))) || ((s1 =? -1) && negb (s2 =? 1)).

(** DoCopy / DoCopySameType, TMV_Vector.h:1994-1996, TMV_Vector.cpp:1302-1330
    (std::copy for steps 1,1 is taken to copy upwards). *)
Definition do_copy v1 v2 m : mem K :=
  if same_as v1 v2 then m
  else zip_loop (fun a _ => a) (vn v2) (vptr v1) (vstep v1) (vptr v2) (vstep v2) m.
(** Copy, TMV_Vector.h:2046-2073, which is also VectorView::operator=. *)
Definition copy_fwd v1 v2 m : mem K :=
  if vconj v1 then
    if vconj v2 then do_copy (v_conjugate v1) (v_conjugate v2) m
    else conjugate_self v2 (do_copy (v_conjugate v1) v2 m)
  else
    if vconj v2 then conjugate_self v2 (do_copy v1 (v_conjugate v2) m)
    else do_copy v1 v2 m.
Fixpoint copy_fuel (fuel : nat) v1 v2 m : option (mem K) :=
  match fuel with
  | O => None
  | S k =>
    if 0 <? vsize v1 then
      if should_reverse (vstep v1) (vstep v2)
      then copy_fuel k (v_reverse v1) (v_reverse v2) m
      else Some (copy_fwd v1 v2 m)
    else Some m
  end.
Definition copy v1 v2 m : option (mem K) := copy_fuel 2 v1 v2 m.

(** DoMultXV in place, TMV_MultXV.cpp:45-88. *)
Definition do_mult_xv x v m : mem K :=
  if vstep v =? 1 then map_unrolled (fun y => kmul y x) (vn v) (vptr v) m
  else map_loop (fun y => kmul y x) (vn v) (vptr v) (vstep v) m.
(** MultXV(x,v): v *= x, TMV_MultXV.cpp:137-155.  For a real factor of a complex
    step-1 view the loop runs over the flattened words; multiplying both words by
    TMV_REAL(x) is multiplying the element by it, which is how it is modelled. *)
Fixpoint mult_xv_fuel (fuel : nat) x v m : option (mem K) :=
  match fuel with
  | O => None
  | S k =>
    if (0 <? vsize v) && negb (keqb x k1) then
      if vstep v <? 0 then mult_xv_fuel k x (v_reverse v) m
      else if vconj v then mult_xv_fuel k (cj x) (v_conjugate v) m
      else if keqb x k0 then Some (set_zero v m)
      else if kcplx K && kisreal x then Some (do_mult_xv (kre x) v m)
      else Some (do_mult_xv x v m)
    else Some m
  end.
Definition mult_xv x v m := mult_xv_fuel 3 x v m.

(** DoMultXV<c1>(x,v1,v2), TMV_MultXV.cpp:157-217. *)
Definition do_mult_xvv (c1 : bool) x v1 v2 m : mem K :=
  let f := fun a (_ : K) => kmul x (if c1 then cj a else a) in
  if (vstep v1 =? 1) && (vstep v2 =? 1)
  then zip_unrolled f (vn v1) (vptr v1) (vptr v2) m
  else zip_loop f (vn v1) (vptr v1) (vstep v1) (vptr v2) (vstep v2) m.
(** MultXV(x,v1,v2): v2 = x*v1, TMV_MultXV.cpp:219-276. *)
Fixpoint mult_xvv_fuel (fuel : nat) x v1 v2 m : option (mem K) :=
  match fuel with
  | O => None
  | S k =>
    if 0 <? vsize v2 then
      if vconj v2 then mult_xvv_fuel k (cj x) (v_conjugate v1) (v_conjugate v2) m
      else if vsize v2 =? 1 then
        Some (set m (vptr v2) (kmul x (if vconj v1 then cj (m (vptr v1)) else m (vptr v1))))
      else if should_reverse (vstep v1) (vstep v2)
        then mult_xvv_fuel k x (v_reverse v1) (v_reverse v2) m
      else if keqb x k0 then Some (set_zero v2 m)
      else if keqb x k1 then copy v1 v2 m
      else if vstep v1 =? 0 then
        Some (set_all_to v2 (kmul x (if vconj v1 then cj (m (vptr v1)) else m (vptr v1))) m)
      else if same_as v2 v1 then mult_xv x v2 m
      else if kcplx K && kisreal x then
        if Bool.eqb (vconj v2) (vconj v1) && ((vstep v1 =? 1) && (vstep v2 =? 1))
        then Some (do_mult_xvv false (kre x) v1 v2 m)
        else if vconj v1 then Some (do_mult_xvv true (kre x) v1 v2 m)
        else Some (do_mult_xvv false (kre x) v1 v2 m)
      else if vconj v1 then Some (do_mult_xvv true x v1 v2 m)
      else Some (do_mult_xvv false x v1 v2 m)
    else Some m
  end.
Definition mult_xvv x v1 v2 m := mult_xvv_fuel 3 x v1 v2 m.

(** NonBlasAddVV, TMV_AddVV.cpp:44-157. *)
Definition nonblas_add_vv (c1 : bool) x v1 v2 m : mem K :=
  let c := fun a : K => if c1 then cj a else a in
  let f := if keqb x k1 then fun a b => kadd b (c a)
           else if keqb x (kopp k1) then fun a b => ksub b (c a)
           else fun a b => kadd b (kmul x (c a)) in
  if (vstep v1 =? 1) && (vstep v2 =? 1)
  then zip_unrolled f (vn v2) (vptr v1) (vptr v2) m
  else zip_loop f (vn v2) (vptr v1) (vstep v1) (vptr v2) (vstep v2) m.
(** DoAddVV, TMV_AddVV.cpp:159-170. *)
Definition do_add_vv x v1 v2 m : mem K :=
  nonblas_add_vv (vconj v1) (if kisreal x then kre x else x) v1 v2 m.
(** AddVV(x,v1,v2): v2 += x*v1, TMV_AddVV.cpp:288-319. *)
Fixpoint add_vv_fuel (fuel : nat) x v1 v2 m : option (mem K) :=
  match fuel with
  | O => None
  | S k =>
    if (0 <? vsize v2) && negb (keqb x k0) then
      if same_as v2 v1 then
        if keqb x (kopp k1) then Some (set_zero v2 m) else mult_xv (kadd x k1) v2 m
      else if vconj v2 then add_vv_fuel k (cj x) (v_conjugate v1) (v_conjugate v2) m
      else if should_reverse (vstep v1) (vstep v2)
        then add_vv_fuel k x (v_reverse v1) (v_reverse v2) m
      else Some (do_add_vv x v1 v2 m)
    else Some m
  end.
Definition add_vv x v1 v2 m := add_vv_fuel 3 x v1 v2 m.

(** AddVV(x1,v1,x2,v2,v3): v3 = x1*v1 + x2*v2, TMV_AddVV.cpp:337-375.  [tmp] is
    the address of the freshly allocated temporary Vector. *)
Definition obind {A B} (o : option A) (f : A -> option B) : option B :=
  match o with Some a => f a | None => None end.
Definition add_vvv (tmp : Z) x1 v1 x2 v2 v3 m : option (mem K) :=
  if 0 <? vsize v3 then
    if same_storage v1 v3 then
      if same_storage v2 v3 then
        let t := mkView tmp (vsize v3) 1 false (kcplx K) in
        obind (mult_xvv x2 v2 t m) (fun m =>
        obind (add_vv x1 v1 t m) (fun m =>
        copy t v3 m))
      else obind (mult_xvv x1 v1 v3 m) (fun m => add_vv x2 v2 v3 m)
    else obind (mult_xvv x2 v2 v3 m) (fun m => add_vv x1 v1 v3 m)
  else Some m.

(** ** Specification *)

(** The value of v(i) in memory m. *)
Definition get m v (i : Z) : K := if vconj v then cj (m (addr v i)) else m (addr v i).
Definition in_view v (a : Z) : Prop := exists i, 0 <= i < vsize v /\ a = addr v i.
Definition same_outside v m m' : Prop := forall a, ~ in_view v a -> m' a = m a.
(** After: v(i) is [f i] for every i, and nothing outside v has changed. *)
Definition becomes v m m' (f : Z -> K) : Prop :=
  (forall i, 0 <= i < vsize v -> get m' v i = f i) /\ same_outside v m m'.
(** No element of v2 is the memory of another element of v1: covers views with
    no common memory and views of the same elements in the same order. *)
Definition safe v1 v2 : Prop :=
  forall i j, 0 <= i < vsize v2 -> 0 <= j < vsize v2 -> i <> j -> addr v2 i <> addr v1 j.
(** [v] is a view of elements of type T. *)
Definition typed v : Prop := vcplx v = kcplx K.

End Ops.
