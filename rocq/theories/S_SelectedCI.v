(** Specifications for the earlier searches of algorithms.py. *)
From Coq Require Import List ZArith Bool Arith.
From Verif Require Import GC S_Alg S_Den S_Basis M_OpString M_Algebra M_Basis M_OpAlg S_OpAlg.
Import ListNotations.
Local Open Scope alg_scope.

(** The commutator of two strings is a nonzero multiple of a third one. *)
Definition commutes_to (ty : optype) (s t u : OS) : Prop := string_ok ty u /\ canonical u /\ exists c, c <> g0 /\
  forall (A : StarAlg) (g : op -> Z -> A), rep ty g -> exact MCommutator (den g s) (den g t) == c · den g u.
(** [u] is reached from the strings [l] by commuting with a string of H that satisfies [p] and
    then with one that satisfies [q]. *)
Definition two_steps (ty : optype) (H : Operator) (p q : OS -> Prop) (l : list OS) (u : OS) : Prop :=
  exists s t1 e t2, In s l /\ In t1 (b_strings (o_basis H)) /\ p t1 /\ commutes_to ty s t1 e /\
    In t2 (b_strings (o_basis H)) /\ q t2 /\ commutes_to ty e t2 u.
(** A string with a label in a list. *)
Definition touches (ls : list Z) (s : OS) : Prop := exists l, In l (os_labels s) /\ In l ls.
(** The largest label of the strings, and the labels between the smallest and the largest. *)
Definition largest_label (l : list OS) (m : Z) : Prop :=
  (exists s, In s l /\ In m (os_labels s)) /\ forall s i, In s l -> In i (os_labels s) -> (i <= m)%Z.
Definition between_labels (l : list OS) (i : Z) : Prop :=
  exists s t a b, In s l /\ In a (os_labels s) /\ In t l /\ In b (os_labels t) /\ (a <= i <= b)%Z.
