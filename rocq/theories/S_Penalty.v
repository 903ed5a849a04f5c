(** Specification of the numbers recorded with a penalty. *)
From Coq Require Import List ZArith Bool Arith Reals.
From Coquelicot Require Import Complex.
From Verif Require Import M_OpString M_Algebra M_Basis M_OpAlg M_LinAlg M_Core S_LinAlg S_Core S_Greedy S_Fidelity.
Import ListNotations.

Definition rsum_list (l : list R) : R := fold_right Rplus 0%R l.
(** [e] is the squared norm of the commutator of [o] with H and 10^10 times the sum of the squared
    overlaps with the Operators [qs]. *)
Definition penalised (ty : optype) (H : Operator) (qs : list COp) (o : COp) (e : R) : Prop :=
  exists d us, commutator_norm ty H o d /\ Forall2 (fun q u => coefficients_in q (c_basis o) u) qs us /\
    e = (d + 10 ^ 10 * rsum_list (map (overlap2 (c_coeffs o)) us))%R.
