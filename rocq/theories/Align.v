(** Storage of every TMV vector and matrix: AlignedMemory and AlignedArray
    (include/tmv/TMV_Array.h:69-345), at the level of byte addresses, with the
    allocator as a parameter. *)
From Coq Require Import List Arith Lia Bool ZArith.
From Verif Require Import Base.
Import ListNotations.
Local Open Scope Z_scope.

(** AlignedMemory<T> for a general T of sizeof(T) = sz (69-91), and the two
    specialisations float (99-140) and double (141-184). *)
Inductive kind := KGen (sz : Z) | KFloat | KDouble.
Definition esz (k : kind) : Z := match k with KGen s => s | KFloat => 4 | KDouble => 8 end.

(** Build-time configuration: TMV_END_PADDING, TMV_INITIALIZE_NAN, the element
    kind, and whether the array holds std::complex of it (288-345). *)
Record cfg := mkCfg { pad : bool; nan : bool; kd : kind; cplx : bool }.

(** A block handed out by operator new: first byte, number of bytes. *)
Definition block := (Z * Z)%type.

(** A store to [len] bytes at [a] is defined only inside one live block. *)
Definition in_live (live : list block) (a len : Z) : bool :=
  existsb (fun b => (fst b <=? a) && (a + len <=? fst b + snd b)) live.

(** for (i = lo; i < hi; ++i) p[i] = ...; *)
Definition stores (live : list block) (p sz lo hi : Z) : outcome unit :=
  for_up (Z.to_nat (hi - lo)) 0
    (fun i _ => if in_live live (p + (lo + Z.of_nat i) * sz) sz then Ok tt else UB) tt.

(** calculateP, 126-132 and 165-171:
    mem + ((0x10 - (mem & 0xf)) & ~0x10). *)
Definition calc_p (mem : Z) : Z := mem + Z.land (16 - Z.land mem 15) (Z.lnot 16).

(** Bytes requested from operator new for n elements: 77-82, 108-116, 147-155.
    (ptrdiff_t overflow of the size computation is not modelled.) *)
Definition bytes (pd : bool) (k : kind) (n : Z) : Z :=
  match k with
  | KGen s => (if pd then n + 16 / s else n) * s
  | KFloat => if pd then Z.shiftl n 2 + 15 + 16 else Z.shiftl n 2 + 15
  | KDouble => if pd then Z.shiftl n 3 + 15 + 16 else Z.shiftl n 3 + 15
  end.

(** The pointer returned by get(). *)
Definition start (k : kind) (mem : Z) : Z :=
  match k with KGen _ => mem | _ => calc_p mem end.

(** End of the zero-padding loop: i<nn, i<(nn>>2), i<(nn>>3). *)
Definition pad_end (k : kind) (n : Z) : Z :=
  match k with
  | KGen s => n + 16 / s
  | KFloat => Z.shiftr (bytes true k n) 2
  | KDouble => Z.shiftr (bytes true k n) 3
  end.

(** An AlignedArray object: mem (None = null), p, and _n (a member only with
    TMV_INITIALIZE_NAN; otherwise the size lives in the owning Vector/Matrix). *)
Record arr := mkArr { amem : option Z; ap : Z; an : Z }.

(** Program state: live blocks, array objects, number of allocations so far. *)
Record ast := mkAst { live : list block; arrs : nat -> option arr; tick : nat }.
Definition ast0 : ast := mkAst [] (fun _ => None) 0.

Definition seta (f : nat -> option arr) (k : nat) (v : option arr) : nat -> option arr :=
  fun x => if (x =? k)%nat then v else f x.

Section Run.
(** operator new: which address it returns for a request, depending on the
    history (the tick) and the live blocks.  It always succeeds (bad_alloc is
    not modelled). *)
Variable alloc : nat -> list block -> Z -> Z.
Variable c : cfg.

(** Number of RT cells for n elements: n, or n<<1 for complex (304, 339). *)
Definition cells (n : Z) : Z := if cplx c then Z.shiftl n 1 else n.

(** allocate(n), 74-85 / 105-119 / 145-158, the NaN fill of the array
    constructor and of resize (222-225, 258-261) included; [None] pointer when
    n <= 0 (221, 257). *)
Definition alloc_arr (n : Z) (lv : list block) (t : nat) : outcome (list block * arr * nat) :=
  if 0 <? n then
    let m := cells n in
    let b := bytes (pad c) (kd c) m in
    let a := alloc t lv b in
    let lv' := (a, b) :: lv in
    let p := start (kd c) a in
    do _ <- (if pad c then stores lv' p (esz (kd c)) m (pad_end (kd c) m) else Ok tt);
    do _ <- (if nan c then stores lv' p (esz (kd c)) 0 m else Ok tt);
    Ok (lv', mkArr (Some a) p n, S t)
  else Ok (lv, mkArr None 0 n, t).

(** operator delete[]: the address must be that of a live block. *)
Definition free (lv : list block) (a : Z) : outcome (list block) :=
  if existsb (fun b => fst b =? a) lv
  then Ok (filter (fun b => negb (fst b =? a)) lv) else UB.

(** deallocate(), 86-87, preceded by the -999 fill (229-231, 253-255). *)
Definition dealloc_arr (o : arr) (lv : list block) : outcome (list block) :=
  do _ <- (if nan c then stores lv (ap o) (esz (kd c)) 0 (cells (an o)) else Ok tt);
  match amem o with Some a => free lv a | None => Ok lv end.

Inductive aop :=
| ANew (x : nat) (n : Z)       (* AlignedArray x(n), 219-226 *)
| AResize (x : nat) (n : Z)    (* x.resize(n), 250-263 *)
| ASwap (x y : nat)            (* x.swapWith(y), 243-249 *)
| ADel (x : nat).              (* ~AlignedArray, 227-234 *)

(** One call.  Constructing over a live object or using a dead one is excluded
    (UB), as in C++. *)
Definition astep (s : ast) (e : aop) : outcome ast :=
  match e with
  | ANew x n =>
    match arrs s x with
    | Some _ => UB
    | None => do r <- alloc_arr n (live s) (tick s);
        let '(lv, o, t) := r in Ok (mkAst lv (seta (arrs s) x (Some o)) t)
    end
  | AResize x n =>
    match arrs s x with
    | None => UB
    | Some o => do lv0 <- dealloc_arr o (live s);
        do r <- alloc_arr n lv0 (tick s);
        let '(lv, o', t) := r in Ok (mkAst lv (seta (arrs s) x (Some o')) t)
    end
  | ASwap x y =>
    match arrs s x, arrs s y with
    | Some ox, Some oy => Ok (mkAst (live s) (seta (seta (arrs s) x (Some oy)) y (Some ox)) (tick s))
    | _, _ => UB
    end
  | ADel x =>
    match arrs s x with
    | None => UB
    | Some o => do lv <- dealloc_arr o (live s); Ok (mkAst lv (seta (arrs s) x None) (tick s))
    end
  end.

Fixpoint arun (s : ast) (h : list aop) : outcome ast :=
  match h with
  | [] => Ok s
  | e :: h' => do s' <- astep s e; arun s' h'
  end.
End Run.

(** * Specification vocabulary *)

Definition disjoint (b1 b2 : block) : Prop :=
  fst b1 + snd b1 <= fst b2 \/ fst b2 + snd b2 <= fst b1.

(** operator new returns a block disjoint from every live one. *)
Definition allocator_ok (alloc : nat -> list block -> Z -> Z) : Prop :=
  forall t lv len, 0 < len -> forall b, In b lv -> disjoint (alloc t lv len, len) b.

(** A history uses objects as C++ allows: constructed once, used while alive. *)
Fixpoint wf_hist (alive : nat -> bool) (h : list aop) : Prop :=
  match h with
  | [] => True
  | ANew x n :: h' => alive x = false /\ wf_hist (fun y => if (y =? x)%nat then true else alive y) h'
  | AResize x n :: h' => alive x = true /\ wf_hist alive h'
  | ASwap x y :: h' => alive x = true /\ alive y = true /\ wf_hist alive h'
  | ADel x :: h' => alive x = true /\ wf_hist (fun y => if (y =? x)%nat then false else alive y) h'
  end.

(** The element count a user expects each object to have: set by construction
    and resize, exchanged by swap. *)
Fixpoint sizes (sz : nat -> option Z) (h : list aop) : nat -> option Z :=
  match h with
  | [] => sz
  | ANew x n :: h' | AResize x n :: h' => sizes (fun y => if (y =? x)%nat then Some n else sz y) h'
  | ASwap x y :: h' => sizes (fun z => if (z =? y)%nat then sz x else if (z =? x)%nat then sz y else sz z) h'
  | ADel x :: h' => sizes (fun y => if (y =? x)%nat then None else sz y) h'
  end.

(** Bytes of one element of the array. *)
Definition elt (c : cfg) : Z := (if cplx c then 2 else 1) * esz (kd c).

(** When the padding loop cannot leave its block: no padding, a general element
    type, or an allocator returning 16-byte aligned blocks. *)
Definition pad_safe (c : cfg) (alloc : nat -> list block -> Z -> Z) : Prop :=
  pad c = false \/ (exists s, kd c = KGen s) \/ forall t lv len, (16 | alloc t lv len).

(** * Proofs *)

Lemma calc_p_spec mem : 0 <= calc_p mem - mem <= 15 /\ (calc_p mem) mod 16 = 0 /\
  calc_p mem - mem = (16 - mem mod 16) mod 16.
Proof.
  unfold calc_p. change (Z.land mem 15) with (Z.land mem (Z.ones 4)). rewrite Z.land_ones by lia.
  change (2 ^ 4) with 16.
  assert (H : 0 <= mem mod 16 < 16) by (apply Z.mod_pos_bound; lia).
  assert (E := Z.div_mod mem 16 ltac:(lia)).
  set (r := mem mod 16) in *. set (q := mem / 16) in *.
  assert (D : Z.land (16 - r) (Z.lnot 16) = (16 - r) mod 16).
  { assert (C : r = 0 \/ r = 1 \/ r = 2 \/ r = 3 \/ r = 4 \/ r = 5 \/ r = 6 \/ r = 7 \/
                r = 8 \/ r = 9 \/ r = 10 \/ r = 11 \/ r = 12 \/ r = 13 \/ r = 14 \/ r = 15) by lia.
    repeat destruct C as [C|C]; try rewrite C; reflexivity. }
  rewrite D.
  assert (HB := Z.mod_pos_bound (16 - r) 16 ltac:(lia)).
  rewrite (Z.add_comm mem), Z.add_simpl_r.
  split; [clearbody r q; revert HB; generalize ((16 - r) mod 16); intros; lia|]. split; [|reflexivity].
  rewrite (Z.add_comm _ mem).
  destruct (Z.eq_dec r 0) as [R0|R0].
  - rewrite R0. change ((16 - 0) mod 16) with 0. rewrite E, R0.
    rewrite !Z.add_0_r. rewrite Z.mul_comm. apply Z.mod_mul. lia.
  - rewrite (Z.mod_small (16 - r)) by lia.
    replace (mem + (16 - r)) with ((q + 1) * 16) by lia. apply Z.mod_mul. lia.
Qed.

Lemma calc_p_aligned mem : (16 | mem) -> calc_p mem = mem.
Proof.
  intros [q E]. destruct (calc_p_spec mem) as [_ [_ H]].
  assert (mem mod 16 = 0) by (subst; apply Z.mod_mul; lia).
  rewrite H0 in H. change ((16 - 0) mod 16) with 0 in H. lia.
Qed.

Lemma in_live_head a b lv x len :
  a <= x -> x + len <= a + b -> in_live ((a, b) :: lv) x len = true.
Proof.
  intros H1 H2. unfold in_live. cbn [existsb fst snd].
  apply orb_true_iff. left. apply andb_true_iff. split; apply Z.leb_le; lia.
Qed.

Lemma in_live_in lv a b x len :
  In (a, b) lv -> a <= x -> x + len <= a + b -> in_live lv x len = true.
Proof.
  intros I H1 H2. unfold in_live. apply existsb_exists. exists (a, b). split; [exact I|].
  apply andb_true_iff. split; apply Z.leb_le; cbn [fst snd]; lia.
Qed.

(** A run of stores is fine when the whole range is in one block. *)
Lemma stores_ok lv a b p sz lo hi :
  In (a, b) lv -> 0 < sz -> a <= p + lo * sz -> (lo < hi -> p + hi * sz <= a + b) ->
  stores lv p sz lo hi = Ok tt.
Proof.
  intros Hin Hs H1 H2. unfold stores.
  destruct (for_up_inv (fun _ (_ : unit) => True) (Z.to_nat (hi - lo)) 0
    (fun i _ => if in_live lv (p + (lo + Z.of_nat i) * sz) sz then Ok tt else UB) tt Logic.I)
    as [[] [E _]]; [|exact E].
  intros i s Hi _. exists tt. split; [|exact Logic.I].
  rewrite (in_live_in lv a b); auto; nia.
Qed.

Lemma stores_bad lv p sz lo hi i :
  lo <= i < hi -> in_live lv (p + i * sz) sz = false -> stores lv p sz lo hi = UB.
Proof.
  intros Hi Hb. unfold stores.
  assert (G : forall n k, (k <= Z.to_nat (i - lo) < k + n)%nat ->
     for_up n k (fun i _ => if in_live lv (p + (lo + Z.of_nat i) * sz) sz then Ok tt else UB) tt = UB).
  { induction n as [|n IH]; intros k Hk; [lia|]. cbn [for_up].
    destruct (Nat.eq_dec k (Z.to_nat (i - lo))) as [->|N].
    - rewrite Z2Nat.id by lia. replace (lo + (i - lo)) with i by lia. rewrite Hb. reflexivity.
    - destruct (in_live lv (p + (lo + Z.of_nat k) * sz) sz); cbn [bindO]; [|reflexivity]. apply IH. lia. }
  apply G. lia.
Qed.

Lemma stores_empty lv p sz lo hi : hi <= lo -> stores lv p sz lo hi = Ok tt.
Proof. intro H. unfold stores. replace (Z.to_nat (hi - lo)) with 0%nat by lia. reflexivity. Qed.

Lemma start_fits pd k n mem : (forall s, k = KGen s -> 0 < s) -> 0 < n ->
  mem <= start k mem /\ start k mem + n * esz k <= mem + bytes pd k n.
Proof.
  intros Hk Hn. destruct k as [s| |]; cbn [start esz bytes].
  - specialize (Hk s eq_refl). split; [lia|].
    assert (0 <= 16 / s) by (apply Z.div_pos; lia). destruct pd; nia.
  - destruct (calc_p_spec mem) as [H _]. rewrite Z.shiftl_mul_pow2 by lia.
    change (2 ^ 2) with 4. destruct pd; lia.
  - destruct (calc_p_spec mem) as [H _]. rewrite Z.shiftl_mul_pow2 by lia.
    change (2 ^ 3) with 8. destruct pd; lia.
Qed.

Lemma bytes_pos pd k n : (forall s, k = KGen s -> 0 < s) -> 0 < n -> 0 < bytes pd k n.
Proof.
  intros Hk Hn. destruct (start_fits pd k n 0 Hk Hn) as [A B].
  assert (0 < esz k) by (destruct k; cbn; auto; lia). nia.
Qed.

Lemma pad_end_float n : pad_end KFloat n = n + 7.
Proof.
  unfold pad_end, bytes. rewrite Z.shiftl_mul_pow2, Z.shiftr_div_pow2 by lia.
  change (2 ^ 2) with 4. replace (n * 4 + 15 + 16) with (31 + n * 4) by lia.
  rewrite Z.div_add by lia. change (31 / 4) with 7. lia.
Qed.

Lemma pad_end_double n : pad_end KDouble n = n + 3.
Proof.
  unfold pad_end, bytes. rewrite Z.shiftl_mul_pow2, Z.shiftr_div_pow2 by lia.
  change (2 ^ 3) with 8. replace (n * 8 + 15 + 16) with (31 + n * 8) by lia.
  rewrite Z.div_add by lia. change (31 / 8) with 3. lia.
Qed.

Lemma pad_fits k n mem : (forall s, k = KGen s -> 0 < s) -> 0 < n ->
  (exists s, k = KGen s) \/ (16 | mem) ->
  start k mem + pad_end k n * esz k <= mem + bytes true k n.
Proof.
  intros Hk Hn Hs. destruct k as [s| |].
  - cbn. lia.
  - destruct Hs as [[s E]|D]; [discriminate|].
    rewrite pad_end_float. cbn [start esz bytes]. rewrite (calc_p_aligned _ D).
    rewrite Z.shiftl_mul_pow2 by lia. change (2 ^ 2) with 4. lia.
  - destruct Hs as [[s E]|D]; [discriminate|].
    rewrite pad_end_double. cbn [start esz bytes]. rewrite (calc_p_aligned _ D).
    rewrite Z.shiftl_mul_pow2 by lia. change (2 ^ 3) with 8. lia.
Qed.

(** Invariant of a reachable state. *)
Record ainv (c : cfg) (s : ast) : Prop := mkAinv {
  ai_null : forall x o, arrs s x = Some o -> amem o = None -> an o <= 0;
  ai_own : forall x o a, arrs s x = Some o -> amem o = Some a ->
     0 < an o /\ ap o = start (kd c) a /\
     In (a, bytes (pad c) (kd c) (cells c (an o))) (live s);
  ai_uniq : forall x y o o' a, arrs s x = Some o -> arrs s y = Some o' ->
     amem o = Some a -> amem o' = Some a -> x = y;
  ai_noleak : forall b, In b (live s) -> exists x o, arrs s x = Some o /\ amem o = Some (fst b);
  ai_disj : forall b b', In b (live s) -> In b' (live s) -> b = b' \/ disjoint b b';
  ai_pos : forall b, In b (live s) -> 0 < snd b
}.

Lemma ainv0 c : ainv c ast0.
Proof. split; cbn; intros; try discriminate; contradiction. Qed.

Lemma seta_eq f k v : seta f k v k = v.
Proof. unfold seta. rewrite Nat.eqb_refl. reflexivity. Qed.
Lemma seta_ne f k v x : x <> k -> seta f k v x = f x.
Proof. intro H. unfold seta. destruct (Nat.eqb_spec x k); [contradiction|reflexivity]. Qed.

Lemma free_ok lv a b : In (a, b) lv ->
  free lv a = Ok (filter (fun z => negb (fst z =? a)) lv).
Proof.
  intro H. unfold free.
  replace (existsb (fun z => fst z =? a) lv) with true; [reflexivity|].
  symmetry. apply existsb_exists. exists (a, b). split; [exact H|]. apply Z.eqb_refl.
Qed.

Section RunProofs.
Variable alloc : nat -> list block -> Z -> Z.
Variable c : cfg.
Hypothesis Hal : allocator_ok alloc.
Hypothesis Hk : forall s, kd c = KGen s -> 0 < s.
Hypothesis Hps : pad_safe c alloc.

Lemma cells_pos n : 0 < n -> 0 < cells c n.
Proof. intro H. unfold cells. destruct (cplx c); auto. rewrite Z.shiftl_mul_pow2 by lia. lia. Qed.

Lemma cells_nonpos n : n <= 0 -> cells c n <= 0.
Proof. intro H. unfold cells. destruct (cplx c); auto. rewrite Z.shiftl_mul_pow2 by lia. lia. Qed.

Lemma esz_pos : 0 < esz (kd c).
Proof. destruct (kd c) as [s| |] eqn:E; cbn; auto; lia. Qed.

Lemma alloc_arr_ok n lv t :
  exists lv' o t', alloc_arr alloc c n lv t = Ok (lv', o, t') /\ an o = n /\
   ((n <= 0 /\ lv' = lv /\ amem o = None) \/
    (0 < n /\ let b := bytes (pad c) (kd c) (cells c n) in let a := alloc t lv b in
      lv' = (a, b) :: lv /\ amem o = Some a /\ ap o = start (kd c) a)).
Proof.
  unfold alloc_arr. destruct (Z.ltb_spec 0 n) as [Hn|Hn].
  - set (m := cells c n). set (b := bytes (pad c) (kd c) m). set (a := alloc t lv b).
    assert (Hm := cells_pos n Hn : 0 < m).
    destruct (start_fits (pad c) (kd c) m a Hk Hm) as [F1 F2]. fold b in F2.
    assert (He := esz_pos).
    assert (E1 : (if pad c then stores ((a, b) :: lv) (start (kd c) a) (esz (kd c)) m (pad_end (kd c) m)
                  else Ok tt) = Ok tt).
    { destruct (pad c) eqn:Ep; [|reflexivity].
      apply (stores_ok _ a b); [left; reflexivity|exact He|nia|].
      intros _. unfold b. try rewrite Ep. apply pad_fits; [exact Hk|exact Hm|].
      destruct Hps as [Hp|[Hp|Hp]]; [congruence|left; exact Hp|right; apply Hp]. }
    assert (E2 : (if nan c then stores ((a, b) :: lv) (start (kd c) a) (esz (kd c)) 0 m else Ok tt) = Ok tt).
    { destruct (nan c); [|reflexivity].
      apply (stores_ok _ a b); [left; reflexivity|exact He|nia|]. intros _. lia. }
    rewrite E1. cbn [bindO]. rewrite E2. cbn [bindO].
    do 3 eexists. split; [reflexivity|]. split; [reflexivity|]. right.
    split; [exact Hn|]. cbn. auto.
  - do 3 eexists. split; [reflexivity|]. split; [reflexivity|]. left. cbn. auto.
Qed.

Lemma dealloc_ok s x o : ainv c s -> arrs s x = Some o ->
  exists lv, dealloc_arr c o (live s) = Ok lv /\
    (forall b, In b lv <-> In b (live s) /\ amem o <> Some (fst b)).
Proof.
  intros I Hx. unfold dealloc_arr.
  destruct (amem o) as [a|] eqn:Em.
  - destruct (ai_own _ _ I x o a Hx Em) as [Hn [Hp Hin]].
    assert (E : (if nan c then stores (live s) (ap o) (esz (kd c)) 0 (cells c (an o)) else Ok tt) = Ok tt).
    { destruct (nan c); [|reflexivity]. assert (He := esz_pos).
      destruct (start_fits (pad c) (kd c) (cells c (an o)) a Hk (cells_pos _ Hn)) as [F1 F2].
      eapply stores_ok; [exact Hin|exact He|rewrite Hp; lia|intros _; rewrite Hp; lia]. }
    rewrite E. cbn [bindO]. rewrite (free_ok _ _ _ Hin). eexists. split; [reflexivity|].
    intro b. rewrite filter_In. split.
    + intros [H1 H2]. split; [exact H1|]. apply negb_true_iff, Z.eqb_neq in H2. congruence.
    + intros [H1 H2]. split; [exact H1|]. apply negb_true_iff, Z.eqb_neq. congruence.
  - assert (E : (if nan c then stores (live s) (ap o) (esz (kd c)) 0 (cells c (an o)) else Ok tt) = Ok tt).
    { destruct (nan c); [|reflexivity]. apply stores_empty. apply cells_nonpos.
      exact (ai_null _ _ I x o Hx Em). }
    rewrite E. cbn [bindO]. eexists. split; [reflexivity|].
    intro b. split; [intro H; split; [exact H|discriminate]|tauto].
Qed.

(** Removing object x after its block was freed. *)
Lemma inv_remove s x o lv t : ainv c s -> arrs s x = Some o ->
  (forall b, In b lv <-> In b (live s) /\ amem o <> Some (fst b)) ->
  ainv c (mkAst lv (seta (arrs s) x None) t).
Proof.
  intros I Hx HL. split; cbn [live arrs].
  - intros y o' Hy. unfold seta in Hy. destruct (Nat.eqb_spec y x); [discriminate|].
    exact (ai_null _ _ I y o' Hy).
  - intros y o' a Hy Ha. unfold seta in Hy. destruct (Nat.eqb_spec y x) as [|N]; [discriminate|].
    destruct (ai_own _ _ I y o' a Hy Ha) as [H1 [H2 H3]]. repeat split; auto.
    apply HL. split; [exact H3|]. cbn [fst]. intro E.
    apply N. exact (ai_uniq _ _ I y x o' o a Hy Hx Ha E).
  - intros y z o1 o2 a Hy Hz. unfold seta in Hy, Hz.
    destruct (Nat.eqb_spec y x); [discriminate|]. destruct (Nat.eqb_spec z x); [discriminate|].
    exact (ai_uniq _ _ I y z o1 o2 a Hy Hz).
  - intros b Hb. apply HL in Hb. destruct Hb as [Hb Hne].
    destruct (ai_noleak _ _ I b Hb) as [y [o' [Hy Ha]]]. exists y, o'. split; [|exact Ha].
    rewrite seta_ne; [exact Hy|]. intros ->. congruence.
  - intros b b' Hb Hb'. apply HL in Hb, Hb'. apply (ai_disj _ _ I); tauto.
  - intros b Hb. apply HL in Hb. apply (ai_pos _ _ I); tauto.
Qed.

(** Adding a freshly allocated object under a name not in use. *)
Lemma inv_add s x n lv' o t' t : ainv c s -> arrs s x = None ->
  alloc_arr alloc c n (live s) t = Ok (lv', o, t') ->
  ainv c (mkAst lv' (seta (arrs s) x (Some o)) t').
Proof.
  intros I Hx E. destruct (alloc_arr_ok n (live s) t) as [lv1 [o1 [t1 [E1 [Hn D]]]]].
  rewrite E in E1. injection E1 as <- <- <-.
  destruct D as [[Hn0 [-> Hm]]|[Hn0 [-> [Hm Hp]]]].
  - split; cbn [live arrs].
    + intros y o' Hy Hy2. unfold seta in Hy. destruct (Nat.eqb_spec y x).
      * injection Hy as <-. lia.
      * exact (ai_null _ _ I y o' Hy Hy2).
    + intros y o' a Hy Ha. unfold seta in Hy. destruct (Nat.eqb_spec y x).
      * injection Hy as <-. congruence.
      * exact (ai_own _ _ I y o' a Hy Ha).
    + intros y z o1 o2 a Hy Hz Ha Hb. unfold seta in Hy, Hz.
      destruct (Nat.eqb_spec y x); [injection Hy as <-; congruence|].
      destruct (Nat.eqb_spec z x); [injection Hz as <-; congruence|].
      exact (ai_uniq _ _ I y z o1 o2 a Hy Hz Ha Hb).
    + intros b Hb. destruct (ai_noleak _ _ I b Hb) as [y [o' [Hy Ha]]]. exists y, o'.
      split; [|exact Ha]. rewrite seta_ne; [exact Hy|]. intros ->. congruence.
    + apply (ai_disj _ _ I).
    + apply (ai_pos _ _ I).
  - set (bb := bytes (pad c) (kd c) (cells c n)) in *. set (a := alloc t (live s) bb) in *.
    assert (Hbb : 0 < bb) by (apply bytes_pos; [exact Hk|apply cells_pos; exact Hn0]).
    assert (Hfr : forall b, In b (live s) -> disjoint (a, bb) b) by (intros; apply Hal; auto).
    assert (Hnew : forall y o' , arrs s y = Some o' -> amem o' <> Some a).
    { intros y o' Hy Ea. destruct (ai_own _ _ I y o' a Hy Ea) as [_ [_ Hin]].
      pose proof (ai_pos _ _ I _ Hin) as P. pose proof (Hfr _ Hin) as F.
      unfold disjoint in F. cbn [fst snd] in *. lia. }
    split; cbn [live arrs].
    + intros y o' Hy Hy2. unfold seta in Hy. destruct (Nat.eqb_spec y x).
      * injection Hy as <-. congruence.
      * exact (ai_null _ _ I y o' Hy Hy2).
    + intros y o' a' Hy Ha. unfold seta in Hy. destruct (Nat.eqb_spec y x).
      * injection Hy as <-. rewrite Hm in Ha. injection Ha as <-. rewrite Hn.
        repeat split; auto. left. reflexivity.
      * destruct (ai_own _ _ I y o' a' Hy Ha) as [H1 [H2 H3]]. repeat split; auto. right. exact H3.
    + intros y z o1 o2 a' Hy Hz Ha Hb. unfold seta in Hy, Hz.
      destruct (Nat.eqb_spec y x) as [->|Ny]; destruct (Nat.eqb_spec z x) as [->|Nz]; auto.
      * injection Hy as <-. rewrite Hm in Ha. injection Ha as <-. destruct (Hnew z o2 Hz Hb).
      * injection Hz as <-. rewrite Hm in Hb. injection Hb as <-. destruct (Hnew y o1 Hy Ha).
      * exact (ai_uniq _ _ I y z o1 o2 a' Hy Hz Ha Hb).
    + intros b [<-|Hb].
      * exists x, o. rewrite seta_eq. split; [reflexivity|exact Hm].
      * destruct (ai_noleak _ _ I b Hb) as [y [o' [Hy Ha]]]. exists y, o'.
        split; [|exact Ha]. rewrite seta_ne; [exact Hy|]. intros ->. congruence.
    + intros b b' [<-|Hb] [<-|Hb']; auto.
      * right. specialize (Hfr b Hb). unfold disjoint in *. cbn [fst snd] in *. lia.
      * apply (ai_disj _ _ I); auto.
    + intros b [<-|Hb]; [exact Hbb|apply (ai_pos _ _ I b Hb)].
Qed.

Lemma seta_seta f k v w x : seta (seta f k v) k w x = seta f k w x.
Proof. unfold seta. destruct (x =? k)%nat; reflexivity. Qed.

Lemma ainv_ext s lv f g t : ainv c (mkAst lv f t) -> (forall x, f x = g x) -> s = mkAst lv g t -> ainv c s.
Proof.
  intros [A B C D E F] H ->. cbn [live arrs] in *. split; cbn [live arrs].
  - intros x o Hx. rewrite <- H in Hx. eauto.
  - intros x o a Hx. rewrite <- H in Hx. eauto.
  - intros x y o o' a Hx Hy. rewrite <- H in Hx, Hy. eauto.
  - intros b Hb. destruct (D b Hb) as [x [o [Hx Ho]]]. exists x, o. rewrite <- H. auto.
  - exact E.
  - exact F.
Qed.

(** One well-formed step keeps the invariant, does not fail, and the sizes
    evolve as the specification says. *)
Definition aliveb (s : ast) (x : nat) : bool := match arrs s x with Some _ => true | None => false end.

Lemma step_ok s e h (al : nat -> bool) (sz : nat -> option Z) :
  ainv c s -> (forall x, al x = aliveb s x) -> (forall x, sz x = option_map an (arrs s x)) ->
  wf_hist al (e :: h) ->
  exists s' al' sz', astep alloc c s e = Ok s' /\ ainv c s' /\
    (forall x, al' x = aliveb s' x) /\ (forall x, sz' x = option_map an (arrs s' x)) /\
    wf_hist al' h /\ sizes sz (e :: h) = sizes sz' h.
Proof.
  intros I Hal' Hsz W. destruct e as [x n|x n|x y|x]; cbn [wf_hist sizes astep] in *.
  - destruct W as [W1 W2]. rewrite Hal' in W1. unfold aliveb in W1.
    destruct (arrs s x) eqn:Ex; [discriminate|].
    destruct (alloc_arr_ok n (live s) (tick s)) as [lv [o [t [E [Hn _]]]]].
    rewrite E. cbn [bindO]. do 3 eexists. split; [reflexivity|]. split; [|split; [|split; [|split; [exact W2|reflexivity]]]].
    + eapply inv_add; eauto.
    + intro z. unfold aliveb. cbn [arrs]. unfold seta. destruct (z =? x)%nat; [reflexivity|apply Hal'].
    + intro z. cbn [arrs]. unfold seta. destruct (z =? x)%nat; [cbn; rewrite Hn; reflexivity|apply Hsz].
  - destruct W as [W1 W2]. rewrite Hal' in W1. unfold aliveb in W1.
    destruct (arrs s x) as [o|] eqn:Ex; [|discriminate].
    destruct (dealloc_ok s x o I Ex) as [lv0 [E0 HL]]. rewrite E0. cbn [bindO].
    destruct (alloc_arr_ok n lv0 (tick s)) as [lv [o' [t [E [Hn _]]]]].
    rewrite E. cbn [bindO]. do 3 eexists. split; [reflexivity|]. split; [|split; [|split; [|split; [exact W2|reflexivity]]]].
    + pose proof (inv_remove s x o lv0 (tick s) I Ex HL) as I1.
      assert (E' : alloc_arr alloc c n (live (mkAst lv0 (seta (arrs s) x None) (tick s))) (tick s)
        = Ok (lv, o', t)) by exact E.
      pose proof (inv_add _ x n lv o' t (tick s) I1 (seta_eq _ _ _) E') as I2.
      eapply ainv_ext; [exact I2| |reflexivity]. intro z. apply seta_seta.
    + intro z. rewrite Hal'. unfold aliveb. cbn [arrs]. unfold seta. destruct (Nat.eqb_spec z x) as [->|]; [rewrite Ex|]; reflexivity.
    + intro z. cbn [arrs]. unfold seta. destruct (z =? x)%nat; [cbn; rewrite Hn; reflexivity|apply Hsz].
  - destruct W as [W1 [W2 W3]]. rewrite Hal' in W1, W2. unfold aliveb in W1, W2.
    destruct (arrs s x) as [ox|] eqn:Ex; [|discriminate].
    destruct (arrs s y) as [oy|] eqn:Ey; [|discriminate].
    do 3 eexists. split; [reflexivity|]. split; [|split; [|split; [|split; [exact W3|reflexivity]]]].
    + set (g := seta (seta (arrs s) x (Some oy)) y (Some ox)).
      (* the renaming of objects: a transposition *)
      set (tr := fun z : nat => if (z =? y)%nat then x else if (z =? x)%nat then y else z).
      assert (Hg : forall z, g z = arrs s (tr z)).
      { intro z. unfold g, tr, seta. destruct (Nat.eqb_spec z y); [congruence|].
        destruct (Nat.eqb_spec z x); congruence. }
      assert (Htr : forall z, tr (tr z) = z).
      { intro z. unfold tr. destruct (Nat.eqb_spec z y) as [->|N1].
        - destruct (Nat.eqb_spec x y); [congruence|]. rewrite Nat.eqb_refl. reflexivity.
        - destruct (Nat.eqb_spec z x) as [->|N2].
          + rewrite Nat.eqb_refl. reflexivity.
          + destruct (Nat.eqb_spec z y); [contradiction|]. destruct (Nat.eqb_spec z x); [contradiction|reflexivity]. }
      destruct I as [A B C D E F]. split; cbn [live arrs]; fold g.
      * intros z o Hz. rewrite Hg in Hz. eauto.
      * intros z o a Hz. rewrite Hg in Hz. eauto.
      * intros z w o o' a Hz Hw H1 H2. rewrite Hg in Hz, Hw.
        pose proof (C _ _ _ _ _ Hz Hw H1 H2) as Q. rewrite <- (Htr z), Q. apply Htr.
      * intros b Hb. destruct (D b Hb) as [z [o [Hz Ho]]]. exists (tr z), o.
        rewrite Hg, Htr. auto.
      * exact E.
      * exact F.
    + intro z. rewrite Hal'. unfold aliveb. cbn [arrs]. unfold seta. destruct (Nat.eqb_spec z y) as [->|]; [rewrite Ey; reflexivity|].
      destruct (Nat.eqb_spec z x) as [->|]; [rewrite Ex|]; reflexivity.
    + intro z. cbn [arrs]. unfold seta. destruct (z =? y)%nat; [rewrite Hsz, Ex; reflexivity|].
      destruct (z =? x)%nat; [rewrite Hsz, Ey; reflexivity|apply Hsz].
  - destruct W as [W1 W2]. rewrite Hal' in W1. unfold aliveb in W1.
    destruct (arrs s x) as [o|] eqn:Ex; [|discriminate].
    destruct (dealloc_ok s x o I Ex) as [lv0 [E0 HL]]. rewrite E0. cbn [bindO].
    do 3 eexists. split; [reflexivity|]. split; [|split; [|split; [|split; [exact W2|reflexivity]]]].
    + eapply inv_remove; eauto.
    + intro z. unfold aliveb. cbn [arrs]. unfold seta. destruct (z =? x)%nat; [reflexivity|apply Hal'].
    + intro z. cbn [arrs]. unfold seta. destruct (z =? x)%nat; [reflexivity|apply Hsz].
Qed.

Lemma run_ok h : forall s al sz, ainv c s -> (forall x, al x = aliveb s x) ->
  (forall x, sz x = option_map an (arrs s x)) -> wf_hist al h ->
  exists s', arun alloc c s h = Ok s' /\ ainv c s' /\
    (forall x, sizes sz h x = option_map an (arrs s' x)).
Proof.
  induction h as [|e h IH]; intros s al sz I Ha Hs W.
  - exists s. cbn. auto.
  - destruct (step_ok s e h al sz I Ha Hs W) as [s1 [al1 [sz1 [E [I1 [H1 [H2 [W1 Ez]]]]]]]].
    destruct (IH s1 al1 sz1 I1 H1 H2 W1) as [s' [E' [I' H']]].
    exists s'. cbn [arun]. rewrite E. cbn [bindO]. rewrite Ez. auto.
Qed.
End RunProofs.
