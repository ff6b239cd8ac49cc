(** v2 = v1 / U and v2 = v1 / L when the result may share memory with the
    matrix: GenUpperTriMatrix::doLDiv and GenLowerTriMatrix::doLDiv
    (src/TMV_TriDiv.cpp:53-64, 119-130). *)
From Verif Require Import Base FMat TriSolve.
From mathcomp Require Import all_ssreflect all_fingroup all_algebra zify.
Set Implicit Arguments. Unset Strict Implicit. Unset Printing Implicit Defensive.
Import GRing.Theory.
Local Open Scope ring_scope.

(** A triangular view and a vector view into one memory (steps non-negative
    here). *)
Record tview := TV { tb : nat; tsi : nat; tsj : nat }.
Record vview := VV { vb : nat; vs : nat }.

Section Model.
Variable F : fieldType.
Implicit Types (m : nat -> F).

Definition tget m (t : tview) : fm F := fun i j => m (tb t + i * tsi t + j * tsj t)%N.
Definition vadr (v : vview) (i : nat) : nat := (vb v + i * vs v)%N.
Definition vget m (v : vview) : fv F := fun i => m (vadr v i).

(** v = x, element by element. *)
Definition vput (N : nat) (v : vview) (x : fv F) m : nat -> F :=
  foldl (fun m i => updv m (vadr v i) (x i)) m (iota 0 N).
(** v2 = v1 through memory. *)
Definition vcopy (N : nat) (v1 v2 : vview) m : nat -> F :=
  foldl (fun m i => updv m (vadr v2 i) (m (vadr v1 i))) m (iota 0 N).

(** TriLDivEq(U,v) reading U and updating v in the same memory: the row
    algorithm (TMV_TriDiv_V.cpp:58-119), as used for a row-major U and a unit-step
    v whose last entry is not 0. *)
Definition memRowU (N : nat) (t : tview) (v : vview) m : outcome (nat -> F) :=
  loop (down N) (fun i m =>
    let m := foldl (fun m j => updv m (vadr v i) (vget m v i - vget m v j * tget m t i j)) m (iota i.+1 (N - i.+1)) in
    if tget m t i i == 0 then Throw Singular
    else Ok (updv m (vadr v i) (vget m v i / tget m t i i))) m.

(** GenUpperTriMatrix::doLDiv, 53-64.  SameStorage compares the addresses of the
    first elements (TMV_Base.h:241-250); here it is applied to v1, not v2. *)
Definition doLDivU (N : nat) (t : tview) (v1 v2 : vview) m : outcome (nat -> F) :=
  if tb t == vb v1 then
    bindO (TriLDivEqU RM false N (tget m t) (vget m v1)) (fun x => Ok (vput N v2 x m))
  else memRowU N t v2 (vcopy N v1 v2 m).

(** GenLowerTriMatrix::doLDiv, 119-130, when the result starts where the matrix
    does: a temporary is used. *)
Definition doLDivL_same (st : stor) (unit : bool) (N : nat) (t : tview) (v1 v2 : vview) m : outcome (nat -> F) :=
  bindO (TriLDivEqL st unit N (tget m t) (vget m v1)) (fun x => Ok (vput N v2 x m)).
End Model.

Section Proofs.
Variable F : fieldType.
Implicit Types (m : nat -> F).

Lemma vputP N v (x : fv F) m : (0 < vs v)%N ->
  (forall i, (i < N)%N -> vget (vput N v x m) v i = x i) /\
  (forall a, (forall i, (i < N)%N -> a != vadr v i) -> vput N v x m a = m a).
Proof.
  move=> Hs; rewrite /vput.
  apply: (@fold_iota_inv _ (fun n c => (forall i, (i < n)%N -> vget c v i = x i) /\
    (forall a, (forall i, (i < n)%N -> a != vadr v i) -> c a = m a)) _ 0 N m) => // n c Hn [h1 h2]; split.
  - move=> i Hi; rewrite /vget /updv; case: (i =P n) => [->|Ni]; first by rewrite eqxx.
    rewrite ifN; first by apply: h1; lia.
    apply/eqP => E; apply: Ni; move/eqP: E; rewrite /vadr eqn_add2l eqn_mul2r => /orP [/eqP|/eqP //]; lia.
  - move=> a Ha; rewrite /updv ifN; last by apply: Ha.
    by apply: h2 => i Hi; apply: Ha; lia.
Qed.

(** Two programs in step. *)
Definition same_outcome {X Y : Type} (R : X -> Y -> Prop) (a : outcome X) (b : outcome Y) : Prop :=
  match a, b with
  | Ok x, Ok y => R x y
  | Throw e, Throw e' => e = e'
  | UB, UB => True
  | _, _ => False
  end.

Lemma loop_sim X Y (R : X -> Y -> Prop) f g (l : seq nat) x y :
  (forall i x y, i \in l -> R x y -> same_outcome R (f i x) (g i y)) -> R x y ->
  same_outcome R (loop l f x) (loop l g y).
Proof.
  elim: l x y => [//|i l IH] x y H Hxy /=.
  have := H i x y (mem_head _ _) Hxy.
  case: (f i x) => [x'|e|]; case: (g i y) => [y'|e'|] //= Hxy'.
  by apply: IH => // j x1 y1 Hj; apply: H; rewrite inE Hj orbT.
Qed.

Lemma fold_sim X Y (R : X -> Y -> Prop) f g (l : seq nat) x y :
  (forall i x y, i \in l -> R x y -> R (f x i) (g y i)) -> R x y -> R (foldl f x l) (foldl g y l).
Proof.
  elim: l x y => [//|i l IH] x y H Hxy /=; apply: IH.
  - by move=> j x1 y1 Hj; apply: H; rewrite inE Hj orbT.
  - by apply: H => //; rewrite mem_head.
Qed.

Lemma vadr_inj v i j : (0 < vs v)%N -> vadr v i = vadr v j -> i = j.
Proof. by move=> Hs /eqP; rewrite /vadr eqn_add2l eqn_mul2r => /orP [/eqP|/eqP //]; lia. Qed.

(** Memory m shows the vector b through v and is m0 elsewhere. *)
Definition shows (N : nat) (v : vview) m0 m (b : fv F) : Prop :=
  (forall i, (i < N)%N -> vget m v i = b i) /\
  (forall a, (forall i, (i < N)%N -> a != vadr v i) -> m a = m0 a).

Lemma shows_upd N v m0 m b i x : (0 < vs v)%N -> (i < N)%N -> shows N v m0 m b ->
  shows N v m0 (updv m (vadr v i) x) (updv b i x).
Proof.
  move=> Hs Hi [h1 h2]; split=> [k Hk|a Ha].
  - rewrite /vget /updv; case: (k =P i) => [->|Nk]; first by rewrite eqxx.
    rewrite ifN; first by apply: (h1 k Hk). by apply/eqP => /(vadr_inj Hs).
  - by rewrite /updv ifN; [apply: h2 | apply: Ha].
Qed.

Lemma memRowU_sim N t v m0 m b : (0 < vs v)%N ->
  (forall i j k, (i <= j < N)%N -> (k < N)%N -> (tb t + i * tsi t + j * tsj t)%N != vadr v k) ->
  shows N v m0 m b ->
  same_outcome (shows N v m0) (memRowU N t v m) (rowU false N (tget m0 t) b).
Proof.
  move=> Hs Hd Hb; rewrite /memRowU /rowU; apply: loop_sim => // i c d.
  rewrite /down mem_rev mem_iota add0n => /andP [_ Hi] Hcd.
  have HT c' d' j : shows N v m0 c' d' -> (i <= j < N)%N -> tget c' t i j = tget m0 t i j.
    by move=> [_ h2] Hj; apply: h2 => k Hk; apply: Hd.
  set c1 := foldl _ c _; set d1 := foldl _ d _.
  have H1 : shows N v m0 c1 d1.
    apply: fold_sim => // j c' d'; rewrite mem_iota => Hj Hcd'.
    rewrite (HT _ _ _ Hcd'); last by lia.
    case: (Hcd') => h1 _; rewrite !h1 //; last by lia.
    by apply: shows_upd.
  rewrite /divdiag (HT _ _ _ H1); last by lia.
  case: ifP => // _ /=; case: (H1) => h1 _; rewrite h1 //.
  by apply: shows_upd.
Qed.

Lemma vcopyP N v1 v2 m : (0 < vs v2)%N ->
  (v1 = v2 \/ forall i j, (i < N)%N -> (j < N)%N -> vadr v1 i != vadr v2 j) ->
  shows N v2 m (vcopy N v1 v2 m) (vget m v1).
Proof.
  move=> Hs Hd; rewrite /shows /vcopy.
  have [h1 [h2 _]] : (forall i, (i < N)%N -> vget (vcopy N v1 v2 m) v2 i = vget m v1 i) /\
    (forall a, (forall i, (i < N)%N -> a != vadr v2 i) -> vcopy N v1 v2 m a = m a) /\
    (forall i, (N <= i < N)%N -> vget (vcopy N v1 v2 m) v1 i = vget m v1 i); last by split.
  rewrite /vcopy.
  apply: (@fold_iota_inv _ (fun n c => (forall i, (i < n)%N -> vget c v2 i = vget m v1 i) /\
    (forall a, (forall i, (i < n)%N -> a != vadr v2 i) -> c a = m a) /\
    (forall i, (n <= i < N)%N -> vget c v1 i = vget m v1 i)) _ 0 N m) => // n c Hn [h1 [h2 h3]]; split; [|split].
  - move=> i Hi; rewrite /vget /updv; case: (i =P n) => [->|Ni]; first by rewrite eqxx; apply: h3; lia.
    rewrite ifN; first by apply: h1; lia. by apply/eqP => /(vadr_inj Hs).
  - move=> a Ha; rewrite /updv ifN; last by apply: Ha.
    by apply: h2 => i Hi; apply: Ha; lia.
  - move=> i Hi; rewrite /vget /updv ifN; first by apply: h3; lia.
    case: Hd => [->|Hd]; last by apply: Hd; lia.
    apply/eqP => /(vadr_inj Hs); lia.
Qed.
End Proofs.
