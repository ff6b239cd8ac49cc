(** Division control of matrices: class DivHelper (src/TMV_BaseMatrix.cpp,
    include/tmv/TMV_BaseMatrix.h:135-360), setDiv of the matrix classes, resize,
    and the users of the cached decomposition. *)
From Coq Require Import List Arith Lia Bool ZArith.
From Verif Require Import Base.
Import ListNotations.
Local Open Scope Z_scope.

(** enum DivType, TMV_Base.h:209-221. *)
Definition XX := 0. Definition LU := 1. Definition CH := 2. Definition QR := 4.
Definition QRP := 8. Definition SV := 16.
Definition DivInPlaceFlag := 32. Definition SaveDivFlag := 64. Definition DivTypeFlags := 31.

Section DivHelper.
(** Matrix contents; a decomposition remembers the contents it was made from. *)
Variable V : Type.

(** A matrix class: which types its setDiv switch has a case for, and which of
    these honour divideInPlace (TMV_Matrix.cpp:67-96, TMV_BandMatrix.cpp:63-83,
    TMV_SymMatrix.cpp:79-108, TMV_SymBandMatrix.cpp:77-103). *)
Record cls := mkCls { has : Z -> bool; inpl : Z -> bool }.
Definition GenMatrixC := mkCls (fun t => (t =? LU) || (t =? QR) || (t =? QRP) || (t =? SV)) (fun _ => true).
Definition BandC := mkCls (fun t => (t =? LU) || (t =? QR) || (t =? SV)) (fun t => negb (t =? SV)).
Definition SymC := mkCls (fun t => (t =? LU) || (t =? CH) || (t =? SV)) (fun _ => true).
Definition SymBandC := mkCls (fun t => (t =? LU) || (t =? CH) || (t =? SV)) (fun t => t =? CH).

(** The numerical work, abstract: the constructor of a decomposition may throw
    (HermCHDiv: NonPosDef), a solve or inverse through one may throw (Singular),
    and an in-place decomposition overwrites the matrix. *)
Record work := mkWork { dthrows : Z -> V -> bool; sthrows : Z -> V -> bool; clobber : Z -> V -> V }.

(** divtype, divider (type and the contents it decomposed), the matrix, and
    isSquare(). *)
Record ds := mkDs { fl : Z; dv : option (Z * V); mat : V; sq : bool }.

Variable c : cls.
Variable w : work.

(** TMV_BaseMatrix.cpp:31. *)
Definition ds0 (m : V) (square : bool) : ds := mkDs XX None m square.

(** divideUsing, 215-223. *)
Definition divideUsing (t : Z) (s : ds) : ds :=
  if Z.land (fl s) t =? 0
  then mkDs (Z.lor (Z.land (fl s) (Z.lnot DivTypeFlags)) t) None (mat s) (sq s)
  else s.

(** resetDivType, 232-234. *)
Definition resetDivType (s : ds) : ds := divideUsing (if sq s then LU else QR) s.

(** getDivType, 225-230. *)
Definition getDivType (s : ds) : ds * Z :=
  let s1 := if Z.land (fl s) DivTypeFlags =? XX then resetDivType s else s in
  (s1, Z.land (fl s1) DivTypeFlags).

Definition divIsInPlace (s : ds) : bool := negb (Z.land (fl s) DivInPlaceFlag =? 0).  (* 244-246 *)
Definition divIsSaved (s : ds) : bool := negb (Z.land (fl s) SaveDivFlag =? 0).       (* 256-257 *)
Definition saveDiv (s : ds) : ds := mkDs (Z.lor (fl s) SaveDivFlag) (dv s) (mat s) (sq s). (* 248-250 *)
Definition dontSaveDiv (s : ds) : ds :=                                              (* 252-254 *)
  mkDs (Z.land (fl s) (Z.lnot SaveDivFlag)) (dv s) (mat s) (sq s).
Definition divideInPlace (s : ds) : ds :=                                            (* 236-238 *)
  saveDiv (mkDs (Z.lor (fl s) DivInPlaceFlag) (dv s) (mat s) (sq s)).
Definition dontDivideInPlace (s : ds) : ds :=                                        (* 240-242 *)
  mkDs (Z.land (fl s) (Z.lnot DivInPlaceFlag)) (dv s) (mat s) (sq s).
Definition unsetDiv (s : ds) : ds := mkDs (fl s) None (mat s) (sq s).                (* 259-261 *)
Definition doneDiv (s : ds) : ds := if divIsSaved s then s else unsetDiv s.          (* 271-273 *)

(** setDiv of the matrix class: false = the constructor of the decomposition
    threw, in which case divider is left empty.  (Whether a throwing in-place
    constructor has already overwritten the matrix is left out: it is taken to
    have done so.) *)
Definition setDiv (s : ds) : ds * bool :=
  match dv s with
  | Some _ => (s, true)
  | None =>
    let (s1, t) := getDivType s in
    if has c t then
      let m' := if divIsInPlace s1 && inpl c t then clobber w t (mat s1) else mat s1 in
      if dthrows w t (mat s1) then (mkDs (fl s1) None m' (sq s1), false)
      else (mkDs (fl s1) (Some (t, mat s1)) m' (sq s1), true)
    else (s1, true)
  end.

(** What a call shows the user. *)
Inductive res :=
| RNone                       (* control call, nothing computed *)
| RUsed (t : Z) (m : V)       (* result computed through a decomposition of type t of contents m *)
| RDirect (m : V)             (* computed from the contents m without the cache *)
| RThrow.                     (* an exception reached the caller *)

Inductive dop :=
| DUsing (t : Z) | DSave | DDontSave | DInPlace | DDontInPlace
| DSet | DUnset | DReset
| DQuery        (* det, logDet, isSingular: setDiv, use, doneDiv; 37-55, 81-88 *)
| DSolve        (* LDiv, RDiv, LDivEq, RDivEq, makeInverse, makeInverseATA into a Matrix; 57-79, 131-213 *)
| DSymInverse   (* makeInverse into a SymMatrix; TMV_SymMatrix.cpp:123-134, TMV_SymBandMatrix.cpp:162-173 *)
| DGet (t : Z)  (* lud(), qrd(), qrpd(), chd(), svd(): TMV_Matrix.h:941-978 *)
| DNorm2        (* norm2(), condition(): TMV_Matrix.h:906-919 *)
| DWrite (m : V)(* any write to the elements *)
| DResize (m : V) (square : bool). (* resize + new contents, TMV_Matrix.h:3410-3417 *)

(** Use the decomposition after setDiv; a null divider is dereferenced: UB.
    [fin] is doneDiv or nothing, skipped when an exception propagates. *)
Definition use (mayThrow : bool) (fin : ds -> ds) (s : ds) : outcome (ds * res) :=
  let (s1, ok) := setDiv s in
  if ok then
    match dv s1 with
    | None => UB
    | Some (t, m) =>
      if mayThrow && sthrows w t m then Ok (s1, RThrow) else Ok (fin s1, RUsed t m)
    end
  else Ok (s1, RThrow).

Definition set_res (p : ds * bool) : ds * res := (fst p, if snd p then RNone else RThrow).

Definition dstep (s : ds) (o : dop) : outcome (ds * res) :=
  match o with
  | DUsing t => Ok (divideUsing t s, RNone)
  | DSave => Ok (saveDiv s, RNone)
  | DDontSave => Ok (dontSaveDiv s, RNone)
  | DInPlace => Ok (divideInPlace s, RNone)
  | DDontInPlace => Ok (dontDivideInPlace s, RNone)
  | DSet => Ok (set_res (setDiv s))
  | DUnset => Ok (unsetDiv s, RNone)
  | DReset => Ok (set_res (setDiv (unsetDiv s)))
  | DQuery => use false doneDiv s
  | DSolve => use true doneDiv s
  | DSymInverse => use true (fun s => s) s
  | DGet t => use false (fun s => s) (divideUsing t s)
  | DNorm2 =>
    match dv s with
    | Some (_, m) =>
      let (s1, t) := getDivType s in
      if t =? SV then Ok (s1, RUsed t m) else Ok (s1, RDirect (mat s1))
    | None => Ok (s, RDirect (mat s))
    end
  | DWrite m => Ok (mkDs (fl s) (dv s) m (sq s), RNone)
  | DResize m b => Ok (resetDivType (mkDs (fl s) (dv s) m b), RNone)
  end.

(** A history; exceptions are caught by the user, who carries on. *)
Fixpoint drun (s : ds) (h : list dop) : outcome (ds * list res) :=
  match h with
  | [] => Ok (s, [])
  | o :: h' =>
    do r <- dstep s o; do r' <- drun (fst r) h'; Ok (fst r', snd r :: snd r')
  end.

(** * Specification *)

Definition dflt (b : bool) : Z := if b then LU else QR.

(** The type the user last asked for: by divideUsing, by naming a decomposition
    (lud() etc.), or by resizing, which returns to the default. *)
Fixpoint asked (cur : Z) (b : bool) (h : list dop) : Z * bool :=
  match h with
  | [] => (cur, b)
  | DUsing t :: h' => asked (if t =? XX then dflt b else t) b h'
  | DGet t :: h' => asked t b h'
  | DResize _ b' :: h' => asked (dflt b') b' h'
  | _ :: h' => asked cur b h'
  end.

(** Legal arguments. *)
Definition is_type (t : Z) : bool := existsb (Z.eqb t) [LU; CH; QR; QRP; SV].
Definition op_ok (o : dop) : bool :=
  match o with
  | DUsing t => (t =? XX) || (is_type t && has c t)
  | DGet t => is_type t && has c t
  | DResize _ b => has c (dflt b)
  | _ => true
  end.

(** * Proofs *)

(** The flag word as three fields. *)
Definition tp (f : Z) := Z.land f DivTypeFlags.
Definition wf_fl (f : Z) : Prop :=
  exists t i k, (t = 0 \/ is_type t = true) /\ (i = 0 \/ i = 32) /\ (k = 0 \/ k = 64) /\ f = t + i + k.

Lemma is_type_cases t : is_type t = true -> t = 1 \/ t = 2 \/ t = 4 \/ t = 8 \/ t = 16.
Proof.
  unfold is_type. cbn [existsb]. unfold LU, CH, QR, QRP, SV.
  rewrite !orb_true_iff, !Z.eqb_eq. intuition lia.
Qed.

(** [fs] enumerates the possible flag words. *)
Definition fs : list Z :=
  flat_map (fun t => flat_map (fun i => map (fun k => t + i + k) [0; 64]) [0; 32]) [0; 1; 2; 4; 8; 16].

Lemma wf_fl_in f : wf_fl f <-> In f fs.
Proof.
  split.
  - intros (t & i & k & Ht & Hi & Hk & ->).
    assert (H : t = 0 \/ t = 1 \/ t = 2 \/ t = 4 \/ t = 8 \/ t = 16).
    { destruct Ht as [->|Ht]; [auto|]. apply is_type_cases in Ht. intuition. }
    destruct Hi as [-> | ->], Hk as [-> | ->];
      repeat destruct H as [H|H]; subst t; vm_compute; intuition.
  - intro H. cbn in H.
    repeat destruct H as [<-|H]; try contradiction;
    [exists 0,0,0|exists 0,0,64|exists 0,32,0|exists 0,32,64
    |exists 1,0,0|exists 1,0,64|exists 1,32,0|exists 1,32,64
    |exists 2,0,0|exists 2,0,64|exists 2,32,0|exists 2,32,64
    |exists 4,0,0|exists 4,0,64|exists 4,32,0|exists 4,32,64
    |exists 8,0,0|exists 8,0,64|exists 8,32,0|exists 8,32,64
    |exists 16,0,0|exists 16,0,64|exists 16,32,0|exists 16,32,64]; cbn; intuition.
Qed.

Lemma fl_forall (P : Z -> bool) : forallb P fs = true -> forall f, wf_fl f -> P f = true.
Proof. intros H f Hf. apply wf_fl_in in Hf. rewrite forallb_forall in H. auto. Qed.

Ltac fl_solve Hf P :=
  let G := fresh in
  assert (G := fl_forall P eq_refl _ Hf); cbv beta in G.

Definition inb f := existsb (Z.eqb f) fs.
Lemma inb_wf f : inb f = true -> wf_fl f.
Proof.
  intro H. apply wf_fl_in. unfold inb in H. apply existsb_exists in H.
  destruct H as [x [H1 H2]]. apply Z.eqb_eq in H2. subst. exact H1.
Qed.

Definition saved f := negb (Z.land f SaveDivFlag =? 0).
Definition inpf f := negb (Z.land f DivInPlaceFlag =? 0).

(** Effects of the flag operations, for every flag word. *)
Lemma fl_save f : wf_fl f -> wf_fl (Z.lor f SaveDivFlag) /\ tp (Z.lor f SaveDivFlag) = tp f /\
  saved (Z.lor f SaveDivFlag) = true.
Proof.
  intro H.
  fl_solve H (fun f => inb (Z.lor f SaveDivFlag) && (tp (Z.lor f SaveDivFlag) =? tp f) && saved (Z.lor f SaveDivFlag)).
  rewrite !andb_true_iff, Z.eqb_eq in H0. destruct H0 as [[A B] C]. auto using inb_wf.
Qed.
Lemma fl_dsave f : wf_fl f -> wf_fl (Z.land f (Z.lnot SaveDivFlag)) /\
  tp (Z.land f (Z.lnot SaveDivFlag)) = tp f /\ saved (Z.land f (Z.lnot SaveDivFlag)) = false.
Proof.
  intro H.
  fl_solve H (fun f => inb (Z.land f (Z.lnot SaveDivFlag)) && (tp (Z.land f (Z.lnot SaveDivFlag)) =? tp f)
    && negb (saved (Z.land f (Z.lnot SaveDivFlag)))).
  rewrite !andb_true_iff, Z.eqb_eq, negb_true_iff in H0. destruct H0 as [[A B] C]. auto using inb_wf.
Qed.
Lemma fl_inp f : wf_fl f -> wf_fl (Z.lor f DivInPlaceFlag) /\ tp (Z.lor f DivInPlaceFlag) = tp f /\
  saved (Z.lor f DivInPlaceFlag) = saved f.
Proof.
  intro H.
  fl_solve H (fun f => inb (Z.lor f DivInPlaceFlag) && (tp (Z.lor f DivInPlaceFlag) =? tp f)
    && eqb (saved (Z.lor f DivInPlaceFlag)) (saved f)).
  rewrite !andb_true_iff, Z.eqb_eq, eqb_true_iff in H0. destruct H0 as [[A B] C]. auto using inb_wf.
Qed.
Lemma fl_dinp f : wf_fl f -> wf_fl (Z.land f (Z.lnot DivInPlaceFlag)) /\
  tp (Z.land f (Z.lnot DivInPlaceFlag)) = tp f /\
  saved (Z.land f (Z.lnot DivInPlaceFlag)) = saved f.
Proof.
  intro H.
  fl_solve H (fun f => inb (Z.land f (Z.lnot DivInPlaceFlag)) && (tp (Z.land f (Z.lnot DivInPlaceFlag)) =? tp f)
    && eqb (saved (Z.land f (Z.lnot DivInPlaceFlag))) (saved f)).
  rewrite !andb_true_iff, Z.eqb_eq, eqb_true_iff in H0. destruct H0 as [[A B] C]. auto using inb_wf.
Qed.

(** divideUsing with a real type. *)
Lemma using_type s t : wf_fl (fl s) -> is_type t = true ->
  wf_fl (fl (divideUsing t s)) /\ tp (fl (divideUsing t s)) = t /\
  saved (fl (divideUsing t s)) = saved (fl s) /\
  mat (divideUsing t s) = mat s /\ sq (divideUsing t s) = sq s /\
  dv (divideUsing t s) = (if tp (fl s) =? t then dv s else None).
Proof.
  intros H Ht. apply is_type_cases in Ht. unfold divideUsing.
  fl_solve H (fun f => forallb (fun t =>
     let f' := if Z.land f t =? 0 then Z.lor (Z.land f (Z.lnot DivTypeFlags)) t else f in
     inb f' && (tp f' =? t) && eqb (saved f') (saved f)
     && eqb (Z.land f t =? 0) (negb (tp f =? t))) [1; 2; 4; 8; 16]).
  rewrite forallb_forall in H0. specialize (H0 t).
  assert (I : In t [1; 2; 4; 8; 16]) by (cbn; intuition).
  specialize (H0 I). cbv zeta in H0. rewrite !andb_true_iff in H0.
  destruct H0 as [[[A B] C] D]. apply Z.eqb_eq in B. apply eqb_prop in C, D.
  destruct (Z.land (fl s) t =? 0); cbn [fl dv mat sq].
  - symmetry in D. apply negb_true_iff in D. rewrite D. auto 10 using inb_wf.
  - symmetry in D. apply negb_false_iff in D. rewrite D. auto 10.
Qed.

Lemma using_xx s : wf_fl (fl s) ->
  wf_fl (fl (divideUsing 0 s)) /\ tp (fl (divideUsing 0 s)) = 0 /\
  saved (fl (divideUsing 0 s)) = saved (fl s) /\
  mat (divideUsing 0 s) = mat s /\ sq (divideUsing 0 s) = sq s /\ dv (divideUsing 0 s) = None.
Proof.
  intro H. unfold divideUsing. rewrite Z.land_0_r. cbn [Z.eqb fl dv mat sq].
  fl_solve H (fun f => let f' := Z.lor (Z.land f (Z.lnot DivTypeFlags)) 0 in
     inb f' && (tp f' =? 0) && eqb (saved f') (saved f)).
  cbv zeta in H0. rewrite !andb_true_iff in H0. destruct H0 as [[A B] C].
  apply Z.eqb_eq in B. apply eqb_prop in C. auto 10 using inb_wf.
Qed.

Lemma dflt_type b : is_type (dflt b) = true.
Proof. destruct b; reflexivity. Qed.

Lemma tp_type f : wf_fl f -> tp f = 0 \/ is_type (tp f) = true.
Proof.
  intro H. fl_solve H (fun f => (tp f =? 0) || is_type (tp f)).
  apply orb_true_iff in H0. rewrite Z.eqb_eq in H0. exact H0.
Qed.

(** Invariant: the flag word is legal, and a cached decomposition has the type
    in force. *)
Definition dinv (s : ds) : Prop :=
  wf_fl (fl s) /\ (forall t m, dv s = Some (t, m) -> tp (fl s) = t /\ is_type t = true).

(** The type in force. *)
Definition force (s : ds) : Z := if tp (fl s) =? 0 then dflt (sq s) else tp (fl s).

Lemma getDivType_spec s : dinv s ->
  let (s1, t) := getDivType s in
  dinv s1 /\ t = force s /\ is_type t = true /\ tp (fl s1) = t /\ mat s1 = mat s /\ sq s1 = sq s /\
  dv s1 = dv s /\ saved (fl s1) = saved (fl s).
Proof.
  intros [Hf Hd]. unfold getDivType, force, resetDivType. fold (tp (fl s)). change XX with 0.
  destruct (Z.eqb_spec (tp (fl s)) 0) as [E|E].
  - change (if sq s then LU else QR) with (dflt (sq s)).
    destruct (using_type s (dflt (sq s)) Hf (dflt_type _)) as [A [B [C [D [F G]]]]].
    assert (Dn : dv s = None).
    { destruct (dv s) as [[t m]|] eqn:Ed; [|reflexivity].
      destruct (Hd t m eq_refl) as [X Y]. rewrite <- X, E in Y. discriminate. }
    assert (Dn' : dv (divideUsing (dflt (sq s)) s) = None).
    { rewrite G, Dn. destruct (_ =? _); reflexivity. }
    fold (tp (fl (divideUsing (dflt (sq s)) s))). rewrite B.
    repeat split; auto using dflt_type; try congruence.
    all: intros; congruence.
  - fold (tp (fl s)). repeat split; auto; try (eapply Hd; eauto; fail).
    destruct (tp_type _ Hf); [contradiction|auto].
Qed.

Lemma setDiv_spec s s1 ok : dinv s -> setDiv s = (s1, ok) ->
  dinv s1 /\ force s1 = force s /\ sq s1 = sq s /\ saved (fl s1) = saved (fl s) /\
  (forall d, dv s = Some d -> s1 = s /\ ok = true) /\
  (dv s = None -> has c (force s) = true ->
     (ok = true /\ dv s1 = Some (force s, mat s) \/ ok = false /\ dv s1 = None)) /\
  (ok = true -> has c (force s) = true -> dv s1 <> None).
Proof.
  intros I E. unfold setDiv in E. destruct (dv s) as [d|] eqn:Ed.
  - injection E as <- <-. repeat split; auto; try apply I; try (eapply (proj2 I); eauto); try congruence.
  - pose proof (getDivType_spec s I) as G. destruct (getDivType s) as [s2 t].
    destruct G as [G1 [G2 [G3 [G4 [G5 [G6 [G7 G8]]]]]]]. subst t. rewrite Ed in G7.
    assert (F : forall m d, force (mkDs (fl s2) d m (sq s2)) = force s).
    { intros m d. unfold force at 1. cbn [fl sq]. rewrite G4.
      destruct (Z.eqb_spec (force s) 0) as [Z0|_]; [rewrite Z0 in G3; discriminate|reflexivity]. }
    destruct (has c (force s)) eqn:Eh.
    + destruct (dthrows w (force s) (mat s2)); injection E as <- <-.
      * split; [split; [apply G1|cbn; discriminate]|]. split; [apply F|].
        cbn [sq fl dv]. repeat split; auto; try discriminate.
      * split; [split; [apply G1|cbn [dv fl]; intros t m Q; injection Q as <- <-; auto]|].
        split; [apply F|]. cbn [sq fl dv]. repeat split; auto; try discriminate.
        intros _ _. left. rewrite G5. auto.
    + injection E as <- <-. destruct s2 as [f2 d2 m2 q2]. cbn [fl dv mat sq] in *. subst d2.
      split; [exact G1|]. split; [apply F|]. repeat split; auto; try discriminate.
Qed.

Lemma doneDiv_inv s : dinv s -> dinv (doneDiv s) /\ force (doneDiv s) = force s /\ sq (doneDiv s) = sq s.
Proof.
  intro I. unfold doneDiv, unsetDiv. destruct (divIsSaved s); [auto|].
  split; [split; [apply I|cbn; discriminate]|]. split; reflexivity.
Qed.

Lemma use_spec b fin s s1 r : dinv s -> use b fin s = Ok (s1, r) ->
  (forall x, dinv x -> dinv (fin x) /\ force (fin x) = force x /\ sq (fin x) = sq x) ->
  dinv s1 /\ force s1 = force s /\ sq s1 = sq s /\
  (forall t m, r = RUsed t m -> t = force s).
Proof.
  intros I E Hfin. unfold use in E. destruct (setDiv s) as [s2 ok] eqn:Es.
  destruct (setDiv_spec s s2 ok I Es) as [A [B [C [S0 [D [F F2]]]]]].
  destruct ok.
  - destruct (dv s2) as [[t m]|] eqn:Ed; [|discriminate].
    assert (T : t = force s).
    { destruct (proj2 A t m Ed) as [X Y]. rewrite <- B. unfold force. rewrite X.
      destruct (Z.eqb_spec t 0) as [->|]; [discriminate|reflexivity]. }
    destruct (b && sthrows w t m); injection E as <- <-.
    + split; [exact A|]. split; [exact B|]. split; [exact C|discriminate].
    + destruct (Hfin s2 A) as [X [Y Z]]. split; [exact X|]. split; [congruence|]. split; [congruence|].
      intros t' m' Q. injection Q as <- <-. exact T.
  - injection E as <- <-. split; [exact A|]. split; [exact B|]. split; [exact C|discriminate].
Qed.

(** Changing only the in-place/save flags. *)
Lemma flag_keep s f' : dinv s -> wf_fl f' -> tp f' = tp (fl s) ->
  dinv (mkDs f' (dv s) (mat s) (sq s)) /\ force (mkDs f' (dv s) (mat s) (sq s)) = force s.
Proof.
  intros [A B] H1 H2. split; [split; [exact H1|]|].
  - cbn [dv fl]. intros t m E. rewrite H2. apply (B t m E).
  - unfold force. cbn [fl sq]. rewrite H2. reflexivity.
Qed.

Lemma id_fin (x : ds) : dinv x -> dinv x /\ force x = force x /\ sq x = sq x.
Proof. auto. Qed.

Lemma divideUsing_inv t s : dinv s -> (t = 0 \/ is_type t = true) ->
  dinv (divideUsing t s) /\ force (divideUsing t s) = (if t =? 0 then dflt (sq s) else t) /\
  sq (divideUsing t s) = sq s.
Proof.
  intros [I1 I2] [->|Ht].
  - destruct (using_xx s I1) as [A [B [C [D [E F]]]]].
    split; [split; [exact A|rewrite F; discriminate]|]. split; [|exact E].
    unfold force. rewrite B. cbn. rewrite E. reflexivity.
  - destruct (using_type s t I1 Ht) as [A [B [C [D [E F]]]]].
    destruct (Z.eqb_spec t 0) as [->|N]; [discriminate|].
    split; [split; [exact A|]|].
    + rewrite F, B. intros t' m. destruct (Z.eqb_spec (tp (fl s)) t) as [Q|Q]; [|discriminate].
      intro X. destruct (I2 t' m X) as [Y Z]. split; congruence.
    + split; [|exact E]. unfold force. rewrite B. destruct (Z.eqb_spec t 0); [contradiction|reflexivity].
Qed.

(** One step: invariant, the type in force follows the specification, results
    are of the type asked for. *)
Lemma dstep_spec s o s1 r h : dinv s -> op_ok o = true -> dstep s o = Ok (s1, r) ->
  dinv s1 /\ asked (force s) (sq s) (o :: h) = asked (force s1) (sq s1) h /\
  (forall t m, r = RUsed t m -> t = fst (asked (force s) (sq s) [o])).
Proof.
  intros I Hok E.
  destruct o as [t| | | | | | | | | | |t| |m|m b]; cbn [dstep op_ok asked] in *;
    try (injection E as <- <-).
  - assert (Ht : t = 0 \/ is_type t = true).
    { apply orb_true_iff in Hok. rewrite andb_true_iff, Z.eqb_eq in Hok. intuition. }
    destruct (divideUsing_inv t s I Ht) as [A [B C]]. split; [exact A|].
    rewrite B, C. split; [reflexivity|discriminate].
  - destruct (fl_save _ (proj1 I)) as [X [Y Z]]. destruct (flag_keep s _ I X Y) as [A B].
    split; [exact A|]. unfold saveDiv. rewrite B. split; [reflexivity|discriminate].
  - destruct (fl_dsave _ (proj1 I)) as [X [Y Z]]. destruct (flag_keep s _ I X Y) as [A B].
    split; [exact A|]. unfold dontSaveDiv. rewrite B. split; [reflexivity|discriminate].
  - unfold divideInPlace, saveDiv. cbn [fl dv mat sq].
    destruct (fl_inp _ (proj1 I)) as [X [Y _]]. destruct (fl_save _ X) as [X' [Y' _]].
    destruct (flag_keep s _ I X' (eq_trans Y' Y)) as [A B].
    split; [exact A|]. rewrite B. split; [reflexivity|discriminate].
  - destruct (fl_dinp _ (proj1 I)) as [X [Y _]]. destruct (flag_keep s _ I X Y) as [A B].
    split; [exact A|]. unfold dontDivideInPlace. rewrite B. split; [reflexivity|discriminate].
  - destruct (setDiv s) as [s2 ok] eqn:Es. destruct (setDiv_spec s s2 ok I Es) as [A [B [C _]]].
    cbn [fst snd]. split; [exact A|]. rewrite B, C. split; [reflexivity|destruct ok; discriminate].
  - split; [split; [apply I|cbn; discriminate]|]. split; [reflexivity|discriminate].
  - assert (I' : dinv (unsetDiv s)) by (split; [apply I|cbn; discriminate]).
    destruct (setDiv (unsetDiv s)) as [s2 ok] eqn:Es.
    destruct (setDiv_spec _ s2 ok I' Es) as [A [B [C _]]].
    cbn [fst snd]. split; [exact A|]. rewrite B, C. split; [reflexivity|destruct ok; discriminate].
  - destruct (use_spec _ _ _ _ _ I E doneDiv_inv) as [A [B [C D]]].
    split; [exact A|]. rewrite B, C. split; [reflexivity|]. exact D.
  - destruct (use_spec _ _ _ _ _ I E doneDiv_inv) as [A [B [C D]]].
    split; [exact A|]. rewrite B, C. split; [reflexivity|]. exact D.
  - destruct (use_spec _ _ _ _ _ I E id_fin) as [A [B [C D]]].
    split; [exact A|]. rewrite B, C. split; [reflexivity|]. exact D.
  - apply andb_true_iff in Hok. destruct Hok as [Ht _].
    destruct (divideUsing_inv t s I (or_intror Ht)) as [A0 [B0 C0]].
    destruct (use_spec _ _ _ _ _ A0 E id_fin) as [A [B [C D]]].
    destruct (Z.eqb_spec t 0) as [->|N]; [discriminate|].
    split; [exact A|]. rewrite B, C, B0, C0. split; [reflexivity|]. intros t' m' Q.
    rewrite (D t' m' Q). exact B0.
  - destruct (dv s) as [[t m]|] eqn:Ed.
    + pose proof (getDivType_spec s I) as G. destruct (getDivType s) as [s2 t2].
      destruct G as [G1 [G2 [G3 [G4 [G5 [G6 [G7 G8]]]]]]].
      assert (F : force s2 = force s).
      { unfold force at 1. rewrite G4, G2. destruct (Z.eqb_spec (force s) 0) as [Q|]; [|reflexivity].
        rewrite G2, Q in G3. discriminate. }
      destruct (Z.eqb_spec t2 SV) as [Q|Q]; injection E as <- <-;
        (split; [exact G1|]; rewrite F, G6; split; [reflexivity|]).
      * intros t' m' X. injection X as <- <-. exact G2.
      * discriminate.
    + injection E as <- <-. split; [exact I|]. split; [reflexivity|discriminate].
  - split; [split; [apply I|exact (proj2 I)]|]. split; [reflexivity|discriminate].
  - assert (I' : dinv (mkDs (fl s) (dv s) m b)) by exact I.
    unfold resetDivType. cbn [sq]. change (if b then LU else QR) with (dflt b).
    destruct (divideUsing_inv (dflt b) _ I' (or_intror (dflt_type b))) as [A [B C]].
    split; [exact A|]. rewrite B, C. cbn [sq]. split; [|discriminate].
    destruct (Z.eqb_spec (dflt b) 0) as [Q|_]; [destruct b; discriminate|reflexivity].
Qed.

Lemma drun_app s h1 h2 :
  drun s (h1 ++ h2) = do r <- drun s h1; do r' <- drun (fst r) h2; Ok (fst r', snd r ++ snd r').
Proof.
  revert s. induction h1 as [|o h IH]; intro s; cbn [app drun].
  - cbn [bindO fst snd app]. destruct (drun s h2) as [[a b]| |]; reflexivity.
  - destruct (dstep s o) as [[s1 r1]| |]; cbn [bindO fst snd]; [|reflexivity|reflexivity].
    rewrite IH. destruct (drun s1 h) as [[s2 l]| |]; cbn [bindO fst snd]; [|reflexivity|reflexivity].
    destruct (drun s2 h2) as [[s3 l3]| |]; reflexivity.
Qed.

Lemma drun_inv h : forall s s1 rs, dinv s -> forallb op_ok h = true -> drun s h = Ok (s1, rs) ->
  dinv s1 /\ asked (force s) (sq s) h = (force s1, sq s1).
Proof.
  induction h as [|o h IH]; intros s s1 rs I Hok E.
  - cbn in E. injection E as <- <-. auto.
  - cbn [forallb] in Hok. apply andb_true_iff in Hok. destruct Hok as [H1 H2].
    cbn [drun] in E. destruct (dstep s o) as [[s2 r]| |] eqn:Es; cbn [bindO fst snd] in E; try discriminate.
    destruct (drun s2 h) as [[s3 l]| |] eqn:Er; cbn [bindO fst snd] in E; try discriminate.
    injection E as <- <-.
    destruct (dstep_spec s o s2 r h I H1 Es) as [A [B _]].
    rewrite B. exact (IH s2 s3 l A H2 Er).
Qed.

Lemma ds0_inv m b : dinv (ds0 m b).
Proof. split; [exists 0, 0, 0; auto|cbn; discriminate]. Qed.

(** No null dereference. *)
Lemma use_defined b fin s : dinv s -> has c (force s) = true -> exists s1 r, use b fin s = Ok (s1, r).
Proof.
  intros I H. unfold use. destruct (setDiv s) as [s2 ok] eqn:Es.
  destruct (setDiv_spec s s2 ok I Es) as [_ [_ [_ [_ [_ [_ F]]]]]].
  destruct ok; [|eauto]. destruct (dv s2) as [[t m]|] eqn:Ed; [|destruct (F eq_refl H eq_refl)].
  destruct (b && sthrows w t m); eauto.
Qed.

Definition alive (s : ds) : Prop := dinv s /\ has c (force s) = true /\ has c (dflt (sq s)) = true.

Lemma force_has s o : alive s -> op_ok o = true ->
  has c (fst (asked (force s) (sq s) [o])) = true /\ has c (dflt (snd (asked (force s) (sq s) [o]))) = true.
Proof.
  intros [_ [A B]] H. destruct o as [t| | | | | | | | | | |t| |m|m b]; cbn [asked fst snd op_ok] in *; auto.
  - destruct (Z.eqb_spec t XX) as [->|N]; [auto|].
    apply orb_true_iff in H. destruct H as [H|H]; [discriminate H|].
    apply andb_true_iff in H. tauto.
  - apply andb_true_iff in H. tauto.
Qed.

Lemma dstep_defined s o : alive s -> op_ok o = true -> exists s1 r, dstep s o = Ok (s1, r) /\ alive s1.
Proof.
  intros Al H.
  assert (D : exists s1 r, dstep s o = Ok (s1, r)).
  { destruct Al as [I [A B]].
    destruct o as [t| | | | | | | | | | |t| |m|m b]; cbn [dstep]; eauto using use_defined;
      try (match goal with |- exists _ _, Ok ?p = _ => destruct p; eauto end).
    - cbn [op_ok] in H. apply andb_true_iff in H. destruct H as [Ht Hc].
      destruct (divideUsing_inv t s I (or_intror Ht)) as [A0 [B0 C0]].
      apply use_defined; [exact A0|]. rewrite B0.
      destruct (Z.eqb_spec t 0) as [->|]; [discriminate|exact Hc].
    - destruct (dv s) as [[t m]|]; [|eauto]. destruct (getDivType s) as [s2 t2].
      destruct (t2 =? SV); eauto. }
  destruct D as [s1 [r E]]. exists s1, r. split; [exact E|].
  destruct (dstep_spec s o s1 r [] (proj1 Al) H E) as [I1 [Q _]].
  destruct (force_has s o Al H) as [X Y]. rewrite Q in X, Y. cbn [asked fst snd] in X, Y.
  split; [exact I1|]. split; assumption.
Qed.

Lemma drun_defined h : forall s, alive s -> forallb op_ok h = true ->
  exists s1 rs, drun s h = Ok (s1, rs).
Proof.
  induction h as [|o h IH]; intros s Al Hok; [cbn; eauto|].
  cbn [forallb] in Hok. apply andb_true_iff in Hok. destruct Hok as [H1 H2].
  destruct (dstep_defined s o Al H1) as [s1 [r [E Al1]]].
  destruct (IH s1 Al1 H2) as [s2 [rs E2]].
  cbn [drun]. rewrite E. cbn [bindO fst snd]. rewrite E2. cbn [bindO fst snd]. eauto.
Qed.

(** * Freshness without saving *)

(** Calls that neither keep a decomposition nor name one. *)
Definition plain (o : dop) : bool :=
  match o with
  | DUsing _ | DDontSave | DDontInPlace | DUnset | DQuery | DSolve | DNorm2 | DWrite _ | DResize _ _ => true
  | _ => false
  end.

Definition clean (s : ds) : Prop := dinv s /\ dv s = None /\ saved (fl s) = false /\ inpf (fl s) = false.

Lemma using_inpf s t : wf_fl (fl s) -> (t = 0 \/ is_type t = true) -> inpf (fl (divideUsing t s)) = inpf (fl s).
Proof.
  intros H Ht. unfold divideUsing.
  fl_solve H (fun f => forallb (fun t =>
     eqb (inpf (if Z.land f t =? 0 then Z.lor (Z.land f (Z.lnot DivTypeFlags)) t else f)) (inpf f)) [0; 1; 2; 4; 8; 16]).
  rewrite forallb_forall in H0.
  assert (I : In t [0; 1; 2; 4; 8; 16]).
  { destruct Ht as [->|Ht]; [cbn; auto|]. apply is_type_cases in Ht. cbn. intuition. }
  specialize (H0 t I). apply eqb_prop in H0. destruct (Z.land (fl s) t =? 0); exact H0.
Qed.

Lemma using_saved s t : wf_fl (fl s) -> (t = 0 \/ is_type t = true) -> saved (fl (divideUsing t s)) = saved (fl s).
Proof. intros H [->|Ht]; [apply using_xx; auto|apply using_type; auto]. Qed.

Lemma using_none s t : dv s = None -> dv (divideUsing t s) = None.
Proof. intro H. unfold divideUsing. destruct (Z.land (fl s) t =? 0); auto. Qed.

Lemma fl_dsave_inpf f : wf_fl f -> inpf (Z.land f (Z.lnot SaveDivFlag)) = inpf f.
Proof. intro H. fl_solve H (fun f => eqb (inpf (Z.land f (Z.lnot SaveDivFlag))) (inpf f)). apply eqb_prop. exact H0. Qed.
Lemma fl_dinp_inpf f : wf_fl f -> inpf (Z.land f (Z.lnot DivInPlaceFlag)) = false.
Proof. intro H. fl_solve H (fun f => negb (inpf (Z.land f (Z.lnot DivInPlaceFlag)))). apply negb_true_iff. exact H0. Qed.

Lemma setDiv_clean s : clean s -> forall s1 ok, setDiv s = (s1, ok) ->
  dinv s1 /\ saved (fl s1) = false /\ inpf (fl s1) = false /\ mat s1 = mat s /\
  (forall t m, dv s1 = Some (t, m) -> m = mat s) /\ (ok = false -> dv s1 = None).
Proof.
  intros [I [Dn [Sv Ip]]] s1 ok E.
  destruct (setDiv_spec s s1 ok I E) as [A [B [C [S0 _]]]].
  unfold setDiv in E. rewrite Dn in E.
  pose proof (getDivType_spec s I) as G.
  assert (IP : inpf (fl (fst (getDivType s))) = false).
  { unfold getDivType. cbn [fst]. destruct (Z.land (fl s) DivTypeFlags =? XX); [|exact Ip].
    unfold resetDivType. change (if sq s then LU else QR) with (dflt (sq s)).
    rewrite using_inpf; [exact Ip|apply I|right; apply dflt_type]. }
  destruct (getDivType s) as [s2 t]. cbn [fst] in IP.
  destruct G as [G1 [G2 [G3 [G4 [G5 [G6 [G7 G8]]]]]]].
  assert (IP' : divIsInPlace s2 = false) by exact IP. rewrite IP' in E. cbn [andb] in E.
  split; [exact A|]. split; [congruence|].
  destruct (has c t).
  - destruct (dthrows w t (mat s2)); injection E as <- <-; cbn [fl mat dv]; repeat split; auto; try discriminate.
    intros t' m' Q. injection Q as <- <-. exact G5.
  - injection E as <- <-. repeat split; auto; rewrite G7, Dn; discriminate.
Qed.

Lemma dstep_plain s o s1 r : clean s -> op_ok o = true -> plain o = true -> dstep s o = Ok (s1, r) -> r <> RThrow ->
  clean s1 /\ (forall t m, r = RUsed t m -> m = mat s) /\
  mat s1 = match o with DWrite m => m | DResize m _ => m | _ => mat s end.
Proof.
  intros Cl Hok Hp E Nt. pose proof Cl as [I [Dn [Sv Ip]]].
  destruct (dstep_spec s o s1 r [] I Hok E) as [I1 _].
  destruct o as [t| | | | | | | | | | |t| |m|m b]; try discriminate; cbn [dstep] in E.
  - injection E as <- <-.
    assert (Ht : t = 0 \/ is_type t = true).
    { cbn [op_ok] in Hok. apply orb_true_iff in Hok. rewrite andb_true_iff, Z.eqb_eq in Hok. intuition. }
    split; [|split; [discriminate|]].
    + split; [exact I1|]. split; [apply using_none; exact Dn|]. split; [rewrite using_saved|rewrite using_inpf]; auto; apply I.
    + unfold divideUsing. destruct (_ =? 0); reflexivity.
  - injection E as <- <-. split; [|split; [discriminate|reflexivity]].
    split; [exact I1|]. cbn [dontSaveDiv dv fl]. split; [exact Dn|]. split; [apply fl_dsave; apply I|].
    rewrite fl_dsave_inpf; [exact Ip|apply I].
  - injection E as <- <-. split; [|split; [discriminate|reflexivity]].
    split; [exact I1|]. cbn [dontDivideInPlace dv fl]. split; [exact Dn|].
    split; [rewrite (proj2 (proj2 (fl_dinp _ (proj1 I)))); exact Sv|apply fl_dinp_inpf; apply I].
  - injection E as <- <-. split; [|split; [discriminate|reflexivity]]. split; [exact I1|auto].
  - unfold use in E. destruct (setDiv s) as [s2 ok] eqn:Es.
    destruct (setDiv_clean s Cl s2 ok Es) as [A [B [C [D [F G]]]]].
    destruct ok; [|injection E as <- <-; contradiction].
    destruct (dv s2) as [[t m]|] eqn:Ed; [|discriminate]. cbn [andb] in E. injection E as <- <-.
    assert (Dd : doneDiv s2 = unsetDiv s2) by (unfold doneDiv, divIsSaved; fold (saved (fl s2)); rewrite B; reflexivity).
    rewrite Dd in *. split; [split; [exact I1|]; cbn [unsetDiv dv fl]; auto|]. split; [|exact D].
    intros t' m' Q. injection Q as <- <-. eapply F. reflexivity.
  - unfold use in E. destruct (setDiv s) as [s2 ok] eqn:Es.
    destruct (setDiv_clean s Cl s2 ok Es) as [A [B [C [D [F G]]]]].
    destruct ok; [|injection E as <- <-; contradiction].
    destruct (dv s2) as [[t m]|] eqn:Ed; [|discriminate].
    destruct (true && sthrows w t m); injection E as <- <-; [contradiction|].
    assert (Dd : doneDiv s2 = unsetDiv s2) by (unfold doneDiv, divIsSaved; fold (saved (fl s2)); rewrite B; reflexivity).
    rewrite Dd in *. split; [split; [exact I1|]; cbn [unsetDiv dv fl]; auto|]. split; [|exact D].
    intros t' m' Q. injection Q as <- <-. eapply F. reflexivity.
  - rewrite Dn in E. injection E as <- <-. split; [exact Cl|]. split; [discriminate|reflexivity].
  - injection E as <- <-. split; [|split; [discriminate|reflexivity]].
    split; [exact I1|]. auto.
  - injection E as <- <-. unfold resetDivType in *. cbn [sq] in *.
    change (if b then LU else QR) with (dflt b) in *.
    split; [|split; [discriminate|]].
    + split; [exact I1|]. split; [apply using_none; exact Dn|].
      split; [rewrite using_saved|rewrite using_inpf]; auto using dflt_type; try apply I.
    + unfold divideUsing. destruct (_ =? 0); reflexivity.
Qed.

(** The contents of the matrix after the user's writes. *)
Fixpoint contents (m : V) (h : list dop) : V :=
  match h with
  | [] => m
  | DWrite m' :: h' | DResize m' _ :: h' => contents m' h'
  | _ :: h' => contents m h'
  end.

Lemma drun_plain h : forall s s1 rs, clean s -> forallb op_ok h = true -> forallb plain h = true ->
  drun s h = Ok (s1, rs) -> ~ In RThrow rs -> clean s1 /\ mat s1 = contents (mat s) h.
Proof.
  induction h as [|o h IH]; intros s s1 rs Cl Hok Hp E Nt.
  - cbn in E. injection E as <- <-. auto.
  - cbn [forallb] in Hok, Hp. apply andb_true_iff in Hok, Hp. destruct Hok as [H1 H2]. destruct Hp as [P1 P2].
    cbn [drun] in E. destruct (dstep s o) as [[s2 r]| |] eqn:Es; cbn [bindO fst snd] in E; try discriminate.
    destruct (drun s2 h) as [[s3 l]| |] eqn:Er; cbn [bindO fst snd] in E; try discriminate.
    injection E as <- <-. cbn [In] in Nt.
    destruct (dstep_plain s o s2 r Cl H1 P1 Es) as [A [B C]]; [intros ->; tauto|].
    destruct (IH s2 s3 l A H2 P2 Er) as [X Y]; [tauto|]. split; [exact X|].
    rewrite Y, C. destruct o; reflexivity.
Qed.

(** * Reuse of a saved decomposition *)

(** Calls that leave a saved decomposition of type t alone. *)
Definition keeps (t : Z) (o : dop) : bool :=
  match o with
  | DUsing t' | DGet t' => t' =? t
  | DUnset | DReset | DDontSave | DResize _ _ => false
  | _ => true
  end.

Lemma keeps_step s t m o s1 r : dinv s -> dv s = Some (t, m) -> saved (fl s) = true ->
  keeps t o = true -> dstep s o = Ok (s1, r) ->
  dinv s1 /\ dv s1 = Some (t, m) /\ saved (fl s1) = true /\ (forall t' m', r = RUsed t' m' -> t' = t /\ m' = m).
Proof.
  intros I Ed Sv Hk E. destruct (proj2 I t m Ed) as [Tp Ty].
  assert (SD : setDiv s = (s, true)) by (unfold setDiv; rewrite Ed; reflexivity).
  assert (DD : doneDiv s = s) by (unfold doneDiv, divIsSaved; fold (saved (fl s)); rewrite Sv; reflexivity).
  assert (US : forall b, exists r', use b doneDiv s = Ok (s, r') /\ (forall t' m', r' = RUsed t' m' -> t' = t /\ m' = m)).
  { intro b. unfold use. rewrite SD, Ed, DD. destruct (b && sthrows w t m); eexists; (split; [reflexivity|]).
    - discriminate.
    - intros ? ? Q. injection Q as <- <-. auto. }
  assert (UI : forall b, exists r', use b (fun s => s) s = Ok (s, r') /\ (forall t' m', r' = RUsed t' m' -> t' = t /\ m' = m)).
  { intro b. unfold use. rewrite SD, Ed. destruct (b && sthrows w t m); eexists; (split; [reflexivity|]).
    - discriminate.
    - intros ? ? Q. injection Q as <- <-. auto. }
  assert (DU : divideUsing t s = s).
  { unfold divideUsing. destruct (Z.eqb_spec (Z.land (fl s) t) 0) as [Q|Q]; [exfalso|reflexivity].
    assert (H := proj1 I). fl_solve H (fun f => (tp f =? 0) || negb (Z.land f (tp f) =? 0)).
    rewrite Tp, Q in H0. rewrite orb_true_iff in H0. destruct H0 as [X|X]; [|discriminate].
    apply Z.eqb_eq in X. subst t. rewrite X in Ty. discriminate. }
  destruct o as [t'| | | | | | | | | | |t'| |m'|m' b]; cbn [keeps dstep] in *; try discriminate.
  - apply Z.eqb_eq in Hk. subst t'. injection E as <- <-. rewrite DU. repeat split; auto; try discriminate; try apply I.
    all: eapply (proj2 I); eauto.
  - injection E as <- <-. destruct (fl_save _ (proj1 I)) as [X [Y Z]].
    destruct (flag_keep s _ I X Y) as [A _]. split; [exact A|]. cbn [saveDiv dv fl]. repeat split; auto; discriminate.
  - injection E as <- <-. unfold divideInPlace, saveDiv. cbn [fl dv mat sq].
    destruct (fl_inp _ (proj1 I)) as [X [Y _]]. destruct (fl_save _ X) as [X' [Y' Z']].
    destruct (flag_keep s _ I X' (eq_trans Y' Y)) as [A _]. split; [exact A|]. repeat split; auto; discriminate.
  - injection E as <- <-. destruct (fl_dinp _ (proj1 I)) as [X [Y Z]].
    destruct (flag_keep s _ I X Y) as [A _]. split; [exact A|]. cbn [dontDivideInPlace dv fl].
    split; [exact Ed|]. split; [congruence|discriminate].
  - rewrite SD in E. injection E as <- <-. cbn [fst]. split; [exact I|]. repeat split; auto; discriminate.
  - destruct (US false) as [r' [Er Hr]]. rewrite Er in E. injection E as <- <-. auto.
  - destruct (US true) as [r' [Er Hr]]. rewrite Er in E. injection E as <- <-. auto.
  - destruct (UI true) as [r' [Er Hr]]. rewrite Er in E. injection E as <- <-. auto.
  - apply Z.eqb_eq in Hk. subst t'. rewrite DU in E.
    destruct (UI false) as [r' [Er Hr]]. rewrite Er in E. injection E as <- <-. auto.
  - rewrite Ed in E. pose proof (getDivType_spec s I) as G.
    assert (GS : fst (getDivType s) = s).
    { unfold getDivType. fold (tp (fl s)). rewrite Tp. change XX with 0.
      destruct (Z.eqb_spec t 0) as [->|]; [discriminate|reflexivity]. }
    destruct (getDivType s) as [s2 t2]. cbn [fst] in GS. subst s2.
    destruct G as [_ [_ [_ [G4 _]]]].
    destruct (t2 =? SV); injection E as <- <-; (split; [exact I|]; split; [exact Ed|]; split; [exact Sv|]).
    + intros ? ? Q. injection Q as <- <-. split; congruence.
    + discriminate.
  - injection E as <- <-. split; [exact I|]. cbn [dv fl]. repeat split; auto; discriminate.
Qed.

Lemma keeps_run h : forall s t m s1 rs, dinv s -> dv s = Some (t, m) -> saved (fl s) = true ->
  forallb (keeps t) h = true -> drun s h = Ok (s1, rs) ->
  dinv s1 /\ dv s1 = Some (t, m) /\ saved (fl s1) = true /\ (forall t' m', In (RUsed t' m') rs -> t' = t /\ m' = m).
Proof.
  induction h as [|o h IH]; intros s t m s1 rs I Ed Sv Hk E.
  - cbn in E. injection E as <- <-. repeat split; auto; try apply I; try (eapply (proj2 I); eauto); contradiction.
  - cbn [forallb] in Hk. apply andb_true_iff in Hk. destruct Hk as [K1 K2].
    cbn [drun] in E. destruct (dstep s o) as [[s2 r]| |] eqn:Es; cbn [bindO fst snd] in E; try discriminate.
    destruct (drun s2 h) as [[s3 l]| |] eqn:Er; cbn [bindO fst snd] in E; try discriminate.
    injection E as <- <-.
    destruct (keeps_step s t m o s2 r I Ed Sv K1 Es) as [A [B [C D]]].
    destruct (IH s2 t m s3 l A B C K2 Er) as [X [Y [Z W]]].
    repeat split; auto; try apply X; try (eapply (proj2 X); eauto; fail).
    all: destruct H as [Q|Q]; [eapply D; eauto|eapply W; eauto].
Qed.

End DivHelper.
