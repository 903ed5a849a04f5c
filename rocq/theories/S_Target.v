(** Specifications for the option target_operator of selected_ci_greedy. *)
From Coq Require Import List ZArith Bool Arith Reals.
From Coquelicot Require Import Complex.
From Verif Require Import M_OpString M_Algebra M_Basis M_OpAlg M_LinAlg M_Core S_LinAlg S_Core S_Greedy S_Fidelity.
Import ListNotations.
Local Open Scope nat_scope.

(** A solver whose eigenvectors are orthonormal. *)
Definition orthonormal_solver (eig : option nat -> list (list C) -> list (R * list C)) : Prop :=
  forall nv D, real_symmetric D -> orthonormal (map snd (eig nv D)).
(** The full solver finds all eigenvectors, if it finds any: they span the space. *)
Definition complete_solver (eig : option nat -> list (list C) -> list (R * list C)) : Prop :=
  forall D v, real_symmetric D -> eig None D <> [] -> length v = length D -> span (length D) (map snd (eig None D)) v.
(** The Operator to be followed in step [i]: the given one, then the best one found before. *)
Definition followed (tgt init : COp) (ops : list COp) (norms : list R) (i : nat) (T : COp) : Prop :=
  match i with
  | 0 => T = tgt
  | _ => exists e, best_of init (firstn i ops) (firstn i norms) T e
  end.
(** [o] is the part of [T] with the strings of [o], normalised. *)
Definition normalised_part (T o : COp) : Prop :=
  exists t c, (0 < c)%R /\ coefficients_in T (c_basis o) t /\ c_coeffs o = map (Cmult (RtoC c)) t /\ norm2c (c_coeffs o) = 1%R.
