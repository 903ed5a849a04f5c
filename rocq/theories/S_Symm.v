(** Specifications for symmetrized bases. *)
From Coq Require Import List ZArith Bool Arith Permutation QArith Qcanon.
From Verif Require Import GC Exn S_Alg S_Den S_Basis S_Built S_Tools S_Transform M_OpString M_Basis.
Import ListNotations.
Local Open Scope nat_scope.

(** [p] after [q]. *)
Definition after (p q : list nat) : list nat := map (fun i => nth i p 0) q.
(** The permutations generated by [gens]. *)
Inductive generated (n : nat) (gens : list (list nat)) : list nat -> Prop :=
| gen_id : generated n gens (seq 0 n)
| gen_step p q : generated n gens p -> In q gens -> generated n gens (after p q).
(** The generators commute. *)
Definition commuting (gens : list (list nat)) : Prop := forall p q, In p gens -> In q gens -> after p q = after q p.
(** The Operator is unchanged by the transformation. *)
Definition unchanged (T : OS -> res Operator) (apply : (OS -> res Operator) -> Operator -> res Operator) (o : Operator) : Prop :=
  exists r, apply T o = Ok r /\ same_coeffs r o.
(** [c] is the coefficient of [u] in the sum of the Operators with the given weights. *)
Inductive weighted (u : OS) : list (GC * Operator) -> GC -> Prop :=
| weighted_nil : weighted u [] g0
| weighted_cons k o r x y : has_coeff (op_terms o) u x -> weighted u r y -> weighted u ((k, o) :: r) (gadd (gmul k x) y).
(** The two Operators have no string in common. *)
Definition no_common (o p : Operator) : Prop := forall s t, In s (b_strings (o_basis o)) -> In t (b_strings (o_basis p)) -> ~ same_key s t.
