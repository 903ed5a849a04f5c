(** Specification of selected_ci_greedy_many_ops. *)
From Coq Require Import List ZArith Bool Arith Reals.
From Coquelicot Require Import Complex.
From Verif Require Import M_OpString M_Algebra M_Basis M_OpAlg M_LinAlg M_Core S_LinAlg S_Core S_Greedy S_Search.
Import ListNotations.
Local Open Scope nat_scope.

(** [o] is a normalised real combination of strings grown from the terms [os], recorded with the
    squared norm of its commutator with H. *)
Definition recorded (ty : optype) (H : Operator) (nH nO : nat) (os : list (C * OS)) (o : COp) (e : R) : Prop :=
  std_cop ty o /\ real_vec (c_coeffs o) /\ norm2c (c_coeffs o) = 1%R /\ commutator_norm ty H o e /\ grown ty H nH nO os (b_strings (c_basis o)).

(** The Operators and numbers of all steps; [cur] are those of the step before [i].  Each
    Operator is grown from the one with the same index in the step before, of which the largest
    [size] coefficients above the threshold are kept (the initial Operators are not truncated). *)
Fixpoint many_found (ty : optype) (H : Operator) (nHs : list nat) (nO : nat) (thr : R) (size : nat) (i : nat) (cur : list COp) (ops : list (list COp)) (norms : list (list R)) : Prop :=
  match ops, norms with
  | [], [] => True
  | os :: ops', es :: norms' =>
      length os = length cur /\ length es = length cur /\
      (forall j c o e, nth_error cur j = Some c -> nth_error os j = Some o -> nth_error es j = Some e ->
         exists nH ts, nth_error nHs i = Some nH /\
           (match i with 0 => ts = c_terms c | _ => picks size (fun t => (thr < Cmod (fst t))%R) (c_terms c) ts end) /\
           recorded ty H nH nO ts o e) /\
      many_found ty H nHs nO thr size (S i) os ops' norms'
  | _, _ => False
  end.
