(** Model of qosy/algorithms.py: [selected_ci_greedy_many_ops].

    Simplifications: [explored_data] is None, so that every call of selected_ci_greedy starts with
    an empty cache; [num_H_terms] is given for each step; printing is left out; the oracles and
    number types are those of M_Greedy. *)
From Coq Require Import List ZArith Bool Arith Reals.
From Coquelicot Require Import Complex.
From Verif Require Import GC Exn M_OpString M_Algebra M_Basis M_OpAlg M_LinAlg M_Explore M_Core M_Greedy.
Import ListNotations.

(** algorithms.py:41-46: [_truncate_operator], see M_Explore.truncate_operator. *)
Definition truncate_cop (Or : groracles) (o : COp) (thr : R) (size : nat) : res COp :=
  let! b := gtruncate Or (c_basis o) (c_coeffs o) thr size in
  let! cs := rmap (fun s => let! i := basis_index (c_basis o) s in of_option IndexError (nth_error (c_coeffs o) i)) (b_strings b) in
  cop_new cs (b_strings b) None.

(** The argument [max_basis_size]: a number or a list.  algorithms.py:1062-1065: the sizes for the
    steps. *)
Inductive max_size : Type := Size (k : nat) | Sizes (l : list nat).
Definition sizes_of (m : max_size) (num_steps : nat) : list nat := match m with Size k => repeat k num_steps | Sizes l => l end.
(** algorithms.py:1099-1100: in later steps the Operator is truncated; [max_basis_size] itself is
    passed on, and comparing a number with a list raises TypeError. *)
Definition many_truncate (Or : groracles) (thr : R) (m : max_size) (step : nat) (o : COp) : res COp :=
  match step, m with
  | 0, _ => Ok o
  | _, Size k => truncate_cop Or o thr k
  | _, Sizes _ => Err TypeError
  end.
(** algorithms.py:1094: the Operators except the one with index [ind]. *)
Definition others {T} (l : list T) (ind : nat) : list T := firstn ind l ++ skipn (S ind) l.
(** [l[-1]] *)
Definition last_of {T} (l : list T) : res T := of_option IndexError (nth_error (rev l) 0).

(** algorithms.py:1089-1110: one Operator of one step; [cur] is current_operators.  The other
    parameters of selected_ci_greedy have their default values (num_vecs is 1). *)
Definition many_op (Or : groracles) (fuel : nat) (H : Operator) (thr : R) (m : max_size) (nH nO size step : nat)
  (acc : list COp * list COp * list R) (ind : nat) : res (list COp * list COp * list R) :=
  let '(cur, ops, norms) := acc in
  let orth := others cur ind in
  let! c := of_option IndexError (nth_error cur ind) in
  let! c' := many_truncate Or thr m step c in
  let! (_, _, os, es) := selected_ci_greedy Or (mkGP [nH] nO [size] (Some orth) None None None 1) fuel c' [H] 1 thr cache_empty in
  let! o := last_of os in
  let! e := last_of es in
  Ok (list_set cur ind o, ops ++ [o], norms ++ [e]).
(** algorithms.py:1083-1115: the remaining [n] steps. *)
Fixpoint many_steps (Or : groracles) (fuel : nat) (H : Operator) (thr : R) (m : max_size) (nHs : list nat) (nO : nat) (sizes : list nat)
  (n step : nat) (cur : list COp) : res (list (list COp) * list (list R)) :=
  match n with
  | 0 => Ok ([], [])
  | S k =>
      let! (cur', ops, norms) :=
        match cur with
        | [] => Ok ([], [], [])
        | _ => let! nH := of_option IndexError (nth_error nHs step) in
               let! size := of_option IndexError (nth_error sizes step) in
               rfold (many_op Or fuel H thr m nH nO size step) (seq 0 (length cur)) (cur, [], [])
        end in
      let! (rops, rnorms) := many_steps Or fuel H thr m nHs nO sizes k (S step) cur' in
      Ok (ops :: rops, norms :: rnorms)
  end.
(** algorithms.py:1060-1117. *)
Definition many_ops (Or : groracles) (fuel : nat) (inits : list COp) (H : Operator) (num_steps : nat) (nHs : list nat) (nO : nat) (thr : R) (m : max_size)
  : res (list (list COp) * list (list R)) :=
  many_steps Or fuel H thr m nHs nO (sizes_of m num_steps) num_steps 0 inits.
