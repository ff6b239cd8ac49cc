(** Text input and output: IOStyle, TMV_Writer, TMV_Reader
    (include/tmv/TMV_IOStyle.h) and the write/read members of Vector, Matrix,
    DiagMatrix and UpperTriMatrix / LowerTriMatrix.

    A text is a list of characters.  An input stream is the text still to be
    read and whether failbit is clear; eofbit makes no difference to the calls
    used here.  Writing is modelled by the text produced.  Integers are
    unbounded.  [operator<<] and [operator>>] of the element type are a [codec]. *)
From Coq Require Import ZArith List Bool Ascii String Lia.
From Coq Require DecimalZ.
From Coq Require Import DecimalString.
Import ListNotations.

Definition text := list ascii.

(** " \n\t\v\r\f", TMV_IOStyle.h:362,371 *)
Definition is_ws (c : ascii) : bool :=
  let n := nat_of_ascii c in (n =? 32)%nat || ((9 <=? n) && (n <=? 13))%nat.
Definition is_digit (c : ascii) : bool :=
  let n := nat_of_ascii c in ((48 <=? n) && (n <=? 57))%nat.
Definition blank (t : text) : bool := forallb is_ws t.

(** std::string::find_first_not_of / find_last_not_of and trim,
    TMV_IOStyle.h:369-378 *)
Fixpoint ltrim (t : text) : text :=
  match t with [] => [] | c :: r => if is_ws c then ltrim r else t end.
Definition trim (t : text) : text := rev (ltrim (rev (ltrim t))).

(** ** Decimal integers, as written and read by iostreams in the C locale *)
Definition zprint (z : Z) : text := list_ascii_of_string (NilZero.string_of_int (Z.to_int z)).
Fixpoint span_digits (t : text) : text * text :=
  match t with
  | [] => ([], [])
  | c :: r => if is_digit c then let (d, q) := span_digits r in (c :: d, q) else ([], t)
  end.
Definition uparse (t : text) : option (Z * text) :=
  let (d, q) := span_digits t in
  match NilZero.uint_of_string (string_of_list_ascii d) with
  | Some u => Some (Z.of_uint u, q)
  | None => None
  end.
Definition zparse (t : text) : option (Z * text) :=
  match t with
  | "-"%char :: r => match uparse r with Some (z, q) => Some ((- z)%Z, q) | None => None end
  | "+"%char :: r => uparse r
  | _ => uparse t
  end.

(** The element type: outVal of a threshold, printing with a precision, parsing,
    and the characters that would extend a number. *)
Record codec := {
  cval : Type;
  cout : Z -> cval -> cval;
  cprint : Z -> cval -> text;
  cparse : text -> option (cval * text);
  ccont : ascii -> bool
}.

(** ** IOStyle, TMV_IOStyle.h:28-149 (thresh is an integer here) *)
Record style := mkStyle {
  usecode : bool; writesize : bool; simplesize : bool; usecompact : bool;
  s_start : text; s_lparen : text; s_space : text; s_rparen : text; s_rowend : text; s_final : text;
  s_thresh : Z; s_prec : Z
}.
Definition T_ (s : string) : text := list_ascii_of_string s.
Definition nl : ascii := ascii_of_nat 10.
(** IOStyle(int), TMV_IOStyle.h:131-136 *)
Definition original_style : style :=
  mkStyle false true true false [nl] (T_ "( ") (T_ "  ") (T_ " )") [nl] [nl] 0 (-1).
(** The setters, TMV_IOStyle.h:36-79 *)
Definition st_noPrefix s := mkStyle false false (simplesize s) (usecompact s)
  (s_start s) (s_lparen s) (s_space s) (s_rparen s) (s_rowend s) (s_final s) (s_thresh s) (s_prec s).
Definition st_useCode s := mkStyle true (writesize s) (simplesize s) (usecompact s)
  (s_start s) (s_lparen s) (s_space s) (s_rparen s) (s_rowend s) (s_final s) (s_thresh s) (s_prec s).
Definition st_noCode s := mkStyle false (writesize s) (simplesize s) (usecompact s)
  (s_start s) (s_lparen s) (s_space s) (s_rparen s) (s_rowend s) (s_final s) (s_thresh s) (s_prec s).
Definition st_noSize s := mkStyle (usecode s) false (simplesize s) (usecompact s)
  (s_start s) (s_lparen s) (s_space s) (s_rparen s) (s_rowend s) (s_final s) (s_thresh s) (s_prec s).
Definition st_simpleSize s := mkStyle (usecode s) true true (usecompact s)
  (s_start s) (s_lparen s) (s_space s) (s_rparen s) (s_rowend s) (s_final s) (s_thresh s) (s_prec s).
Definition st_fullSize s := mkStyle (usecode s) true false (usecompact s)
  (s_start s) (s_lparen s) (s_space s) (s_rparen s) (s_rowend s) (s_final s) (s_thresh s) (s_prec s).
Definition st_markup a b c d e f s := mkStyle (usecode s) (writesize s) (simplesize s) (usecompact s)
  a b c d e f (s_thresh s) (s_prec s).
Definition st_fullMatrix s := mkStyle (usecode s) (writesize s) (simplesize s) false
  (s_start s) (s_lparen s) (s_space s) (s_rparen s) (s_rowend s) (s_final s) (s_thresh s) (s_prec s).
Definition st_compact s := mkStyle (usecode s) (writesize s) (simplesize s) true
  (s_start s) (s_lparen s) (s_space s) (s_rparen s) (s_rowend s) (s_final s) (s_thresh s) (s_prec s).
Definition st_setThresh t s := mkStyle (usecode s) (writesize s) (simplesize s) (usecompact s)
  (s_start s) (s_lparen s) (s_space s) (s_rparen s) (s_rowend s) (s_final s) t (s_prec s).
Definition st_setPrecision p s := mkStyle (usecode s) (writesize s) (simplesize s) (usecompact s)
  (s_start s) (s_lparen s) (s_space s) (s_rparen s) (s_rowend s) (s_final s) (s_thresh s) p.

(** The named styles, TMV_IOStyle.h:152-171; [d] is the current default. *)
Definition NormalIO d := st_markup [nl] (T_ "( ") (T_ "  ") (T_ " )") [nl] [nl]
  (st_fullMatrix (st_simpleSize (st_noCode d))).
Definition CompactIO d := st_markup [] [] (T_ " ") [] (T_ " ") []
  (st_compact (st_fullSize (st_useCode d))).
Definition ThreshIO t d := st_setThresh t d.
Definition PrecIO p d := st_setPrecision p d.
Definition EigenIO d := st_markup [] [] (T_ " ") [] [nl] [] (st_fullMatrix (st_noPrefix d)).

(** ** Streams *)
Record stream := mkStream { txt : text; okst : bool }.

(** is.get(c): on failure sets failbit and leaves c alone. *)
Definition get_char (st : stream) : option ascii * stream :=
  if okst st then
    match txt st with
    | [] => (None, mkStream [] false)
    | c :: r => (Some c, mkStream r true)
    end
  else (None, st).

(** The outcome of reading into an object of type T: a value, a thrown ReadError,
    undefined behaviour, or fuel exhausted in skipWhiteSpace's loop. *)
Inductive run (T A : Type) : Type :=
| Val (a : A) (t : T) (st : stream)
| Err (t : T) (st : stream)
| Undef
| Spin.
Arguments Val {T A} a t st. Arguments Err {T A} t st. Arguments Undef {T A}. Arguments Spin {T A}.
Definition rd (T A : Type) := T -> stream -> run T A.
Definition rret {T A} (a : A) : rd T A := fun t st => Val a t st.
Definition rbind {T A B} (p : rd T A) (q : A -> rd T B) : rd T B :=
  fun t st => match p t st with
  | Val a t' st' => q a t' st'
  | Err t' st' => Err t' st'
  | Undef => Undef
  | Spin => Spin
  end.
Definition rthrow {T A} : rd T A := fun t st => Err t st.
Definition rundef {T A} : rd T A := fun _ _ => Undef.
Definition rput {T} (f : T -> T) : rd T unit := fun t st => Val tt (f t) st.
Definition rseq {T A B} (p : rd T A) (q : rd T B) : rd T B := rbind p (fun _ => q).
(** [if (!p) throw ...ReadError(...)] *)
Definition must {T} (p : rd T bool) : rd T unit := rbind p (fun b => if b then rret tt else rthrow).

(** [do { is.get(c); } while (whitespace.find(c) != npos); is.unget();]
    TMV_IOStyle.h:360-366.  c starts uninitialised. *)
Fixpoint skip_loop (fuel : nat) (c : option ascii) (st : stream) : option (option stream) :=
  match fuel with
  | O => None
  | S k =>
    let (g, st') := get_char st in
    let c := match g with Some x => Some x | None => c end in
    match c with
    | None => Some None
    | Some x => if is_ws x then skip_loop k c st'
                else Some (Some (if okst st' then mkStream (x :: txt st') true else st'))
    end
  end.

Section Reader.
Variable fuel : nat.
Variable s : style.
Context {T : Type}.

Definition skip_ws : rd T unit := fun t st =>
  match skip_loop fuel None st with
  | None => Spin
  | Some None => Undef
  | Some (Some st') => Val tt t st'
  end.

(** for(i...) is.get(getstr[i]), getstr initially blanks *)
Fixpoint get_n (n : nat) (st : stream) : text * stream :=
  match n with
  | O => ([], st)
  | S k => let (g, st1) := get_char st in
           let (r, st2) := get_n k st1 in
           ((match g with Some c => c | None => " "%char end) :: r, st2)
  end.
Fixpoint text_eqb (a b : text) : bool :=
  match a, b with
  | [], [] => true
  | x :: a', y :: b' => Ascii.eqb x y && text_eqb a' b'
  | _, _ => false
  end.
(** readStr, TMV_IOStyle.h:257-272 *)
Definition read_str (str : text) : rd T bool :=
  match str with
  | [] => rret true
  | _ => rbind skip_ws (fun _ t st =>
           let (g, st') := get_n (List.length str) st in
           if text_eqb g str then Val (okst st') t st' else Val false t st')
  end.
Definition read_start := read_str (trim (s_start s)).
Definition read_lparen := read_str (trim (s_lparen s)).
Definition read_space := read_str (trim (s_space s)).
Definition read_rparen := read_str (trim (s_rparen s)).
Definition read_rowend := read_str (trim (s_rowend s)).
Definition read_final := read_str (trim (s_final s)).
(** readCode, TMV_IOStyle.h:274-286 *)
Definition read_code (code : text) : rd T bool :=
  if usecode s then rbind (read_str (trim code)) (fun b => if b then read_space else rret false)
  else rret true.
(** [is >> x] then [!is]: None on failure *)
Definition extract {A} (parse : text -> option (A * text)) : rd T (option A) := fun t st =>
  if okst st then
    match parse (txt st) with
    | Some (x, r) => Val (Some x) t (mkStream r true)
    | None => Val None t (mkStream (txt st) false)
    end
  else Val None t st.
(** readSize(n), TMV_IOStyle.h:326-336: returns the new n, None for false *)
Definition read_size (n : Z) : rd T (option Z) :=
  if writesize s then
    rbind skip_ws (fun _ => rbind (extract zparse) (fun o =>
      match o with
      | None => rret None
      | Some n' => rbind read_space (fun b => rret (if b then Some n' else None))
      end))
  else rret (Some n).
Definition read_simple_size n := if simplesize s then read_size n else rret (Some n).
Definition read_full_size n := if simplesize s then rret (Some n) else read_size n.
(** [if (!reader.readSize(n,...)) throw] *)
Definition must_size (p : rd T (option Z)) : rd T Z :=
  rbind p (fun o => match o with Some n => rret n | None => rthrow end).

Variable C : codec.
(** readValue, TMV_IOStyle.h:344-351 *)
Definition read_value : rd T (option (cval C)) := rseq skip_ws (extract (cparse C)).
Definition must_value : rd T (cval C) :=
  rbind read_value (fun o => match o with Some x => rret x | None => rthrow end).

(** [for(i=lo;i<lo+n;++i) body(i);] *)
Fixpoint rloop (n lo : nat) (body : nat -> rd T unit) : rd T unit :=
  match n with
  | O => rret tt
  | S k => rseq (body lo) (rloop k (S lo) body)
  end.

(** ** Writer, TMV_IOStyle.h:173-247 *)
Definition write_code (code : text) : text := if usecode s then code ++ s_space s else [].
Definition write_size (n : Z) : text := if writesize s then zprint n ++ s_space s else [].
Definition write_simple_size n := if simplesize s then write_size n else [].
Definition write_full_size n := if simplesize s then [] else write_size n.
Definition write_value (x : cval C) : text := cprint C (s_prec s) (cout C (s_thresh s) x).
Fixpoint wloop (n lo : nat) (body : nat -> text) : text :=
  match n with O => [] | S k => body lo ++ wloop k (S lo) body end.
End Reader.

(** ** Vector *)
Section Vec.
Variable fuel : nat.
Variable s : style.
Variable C : codec.
(** A vector: size and elements. *)
Record vec := mkVec { vlen : nat; velt : nat -> cval C }.
Definition upd {A} (f : nat -> A) i x := fun j => if Nat.eqb j i then x else f j.
Definition vset i x (v : vec) := mkVec (vlen v) (upd (velt v) i x).

(** GenVector::write, TMV_Vector.cpp:1540-1555 *)
Definition write_vec (v : vec) : text :=
  write_code s (T_ "V") ++ write_size s (Z.of_nat (vlen v)) ++ s_lparen s ++
  wloop (vlen v) 0 (fun i => (if Nat.ltb 0 i then s_space s else []) ++ write_value s C (velt v i)) ++
  s_rparen s.

(** FinishRead, TMV_Vector.cpp:1628-1670 *)
Definition finish_read_vec (n : nat) : rd vec unit :=
  rseq (must (read_lparen fuel s))
  (rseq (rloop n 0 (fun i =>
     rseq (if Nat.ltb 0 i then must (read_space fuel s) else rret tt)
     (rbind (must_value fuel C) (fun x => rput (vset i x)))))
   (must (read_rparen fuel s))).

(** resize(n), TMV_Vector.h:1893-1905: new uninitialised elements; a negative
    size is undefined behaviour. *)
Variable junk : nat -> cval C.
Definition resize_vec (n : Z) : rd vec unit :=
  if (n <? 0)%Z then rundef else rput (fun _ => mkVec (Z.to_nat n) junk).

(** Vector::read, TMV_Vector.cpp:1673-1697 *)
Definition read_vec : rd vec unit := fun v0 =>
  (rseq (must (read_code fuel s (T_ "V")))
  (rbind (must_size (read_size fuel s (Z.of_nat (vlen v0)))) (fun n =>
   rseq (if Z.eqb n (Z.of_nat (vlen v0)) then rret tt else resize_vec n)
        (finish_read_vec (Z.to_nat n))))) v0.

(** VectorView::read, TMV_Vector.cpp:1699-1732 *)
Definition read_vec_view : rd vec unit := fun v0 =>
  (rseq (must (read_code fuel s (T_ "V")))
  (rbind (must_size (read_size fuel s (Z.of_nat (vlen v0)))) (fun n =>
   if Z.eqb n (Z.of_nat (vlen v0)) then finish_read_vec (vlen v0) else rthrow))) v0.
End Vec.
