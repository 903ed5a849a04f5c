(** Model of the entropies of /repo/qosy/diagonalization.py. *)
From Coq Require Import List ZArith NArith Reals Qreals Qcanon.
From Verif Require Import GC Exn M_OpAlg M_Diag.
Import ListNotations.

(** numpy.dot of two matrices with 2^k rows and columns, numpy.eye and numpy.trace. *)
Definition np_dot (k : nat) (A B : N -> N -> GC) (a c : N) : GC := gsum (map (fun b => gmul (A a b) (B b c)) (confs k)).
Definition np_eye (a b : N) : GC := if N.eqb a b then g1 else g0.
Definition np_trace (k : nat) (A : N -> N -> GC) : GC := gsum (map (fun a => A a a) (confs k)).
(** Modulus of a complex number. *)
Definition modulus (z : GC) : R := sqrt (Q2R (this (re z)) * Q2R (this (re z)) + Q2R (this (im z)) * Q2R (this (im z))).
(** numpy.real(numpy.log(z)) of a complex number [z]: the real logarithm of the modulus; [None] is -inf (numpy
    warns and does not raise). *)
Definition np_real_log (z : GC) : option R := if gc_eqb z g0 then None else Some (ln (modulus z)).
(** diagonalization.py:217-219: the loop [for ind in range(n)]; [range] of a negative number is empty. *)
Definition rho_power (k : nat) (rho : N -> N -> GC) (n : Z) : N -> N -> GC :=
  Nat.iter (Z.to_nat n) (fun P => np_dot k P rho) np_eye.
(** diagonalization.py:214-221: [renyi_entropy(rho, n)] of a complex matrix with 2^k rows, for a Python int [n]
    ([1.0/(1.0-n)] raises ZeroDivisionError for n = 1).  [None] is -inf times the factor.  Simplification: no
    rounding, so the logarithm and the factor are real numbers. *)
Definition renyi_entropy (k : nat) (rho : N -> N -> GC) (n : Z) : res (option R) :=
  let P := rho_power k rho n in
  if (n =? 1)%Z then Err ZeroDivisionError
  else Ok (option_map (fun x => (/ (1 - IZR n) * x)%R) (np_real_log (np_trace k P))).
