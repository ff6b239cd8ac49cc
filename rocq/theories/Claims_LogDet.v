(** C23, the logarithmic form of the determinant. *)
From Verif Require Import LogDet.
Require Import Reals List.
Open Scope R_scope.

(** LUDiv::det goes through logarithms: sign times exponential of the sum of logs
    is the product of the diagonal, zero included (real elements, complex
    elements stored plain or conjugated; exact exp and ln). *)
Theorem C23_logdet (log0 psign : R) (d : list R) :
  detOf log0 psign d = psign * fold_right Rmult 1 d.
Proof. exact (detOfP log0 psign d). Qed.
Print Assumptions C23_logdet.

Theorem C23_logdet_complex (log0 psign : R) (conj : bool) (mem : list (R * R)) :
  cdetOf log0 psign conj mem =
  let p := fold_right cmul (1, 0) (if conj then map (fun z => (fst z, - snd z)) mem else mem) in
  (psign * fst p, psign * snd p).
Proof. exact (cdetOfP log0 psign conj mem). Qed.
Print Assumptions C23_logdet_complex.

Example C23_logdet_example : detOf 0 1 (2 :: -3 :: nil) = -6 /\ detOf 5 1 (2 :: 0 :: nil) = 0.
Proof. rewrite !C23_logdet; simpl; split; ring. Qed.
