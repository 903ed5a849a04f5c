(** Specification of the overlap with a target operator. *)
From Coq Require Import List ZArith Bool Arith Reals.
From Coquelicot Require Import Complex.
From Verif Require Import M_OpString M_Basis M_LinAlg M_Core S_LinAlg S_Core.
Import ListNotations.

(** The coefficients of an Operator for the strings of a Basis; zero for strings that do not
    occur in it. *)
Definition coefficients_in (o : COp) (b : Basis) (v : list C) : Prop :=
  length v = basis_len b /\ forall i s z, nth_error (b_strings b) i = Some s -> nth_error v i = Some z ->
    (forall c, In (c, s) (c_terms o) -> z = c) /\ (~ In s (map snd (c_terms o)) -> z = RtoC 0).
(** The squared absolute value of the overlap. *)
Definition overlap2 (u t : list C) : R := (Cmod (inner u t) ^ 2)%R.
(** [v] is a normalised combination of [vs] with the largest overlap with [t]. *)
Definition best_overlap (n : nat) (vs : list (list C)) (t v : list C) : Prop :=
  span n vs v /\ norm2c v = 1%R /\ forall u, span n vs u -> norm2c u = 1%R -> (overlap2 u t <= overlap2 v t)%R.
