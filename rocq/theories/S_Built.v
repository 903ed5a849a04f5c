(** Objects reachable through the API of qosy/basis.py. *)
From Coq Require Import List ZArith Arith.
From Verif Require Import GC Exn M_OpString M_Basis M_Heap.
Import ListNotations.

(** A Basis obtained by any sequence of constructor, [+] and [+=] calls. *)
Inductive built : Basis -> Prop :=
| built_new l b : basis_new l = Ok b -> built b
| built_add b c d : built b -> built c -> basis_add b c = Ok d -> built d
| built_add_string b s d : built b -> basis_add_string b s = Ok d -> built d
| built_iadd b c : built b -> built c -> built (basis_iadd b c)
| built_iadd_string b s : built b -> built (basis_iadd_string b s).

(** An Operator obtained from the constructor with as many coefficients as strings. *)
Definition made (o : Operator) : Prop :=
  exists cs l ty, length cs = length l /\ op_new cs l ty = Ok o.

(** Statements that build Operators only from lists or from other Operators. *)
Definition list_built (c : cmd) : Prop :=
  match c with
  | CList _ | COpList _ _ _ | COpAdd _ _ | COpScale _ _ | COpIadd _ _ | COpIsub _ _ => True
  | CBasis _ | COpBasis _ _ _ | CBasisIadd _ _ | CBasisIaddString _ _ => False
  end.
(** The Operator constructor is given as many coefficients as strings. *)
Definition lengths_agree (h : heap) (c : cmd) : Prop :=
  match c with
  | COpList cs a _ => forall l, list_view h a = Ok l -> length cs = length l
  | _ => True
  end.
(** Heaps reachable by such statements. *)
Inductive history : heap -> Prop :=
| hist_nil : history h_empty
| hist_step h c h' : history h -> list_built c -> lengths_agree h c -> step h c = Ok h' -> history h'.
