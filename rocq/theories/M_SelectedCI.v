(** Model of qosy/algorithms.py: the earlier searches [selected_ci_simple], [selected_ci],
    [selected_ci_sweep] and [selected_ci_greedy_simple].

    Simplifications: printing is left out.  Code that can only be reached after a statement that
    always raises is left out. *)
From Coq Require Import List ZArith Bool Arith.
From Verif Require Import GC Exn M_OpString M_Algebra M_Basis M_OpAlg M_Explore.
Import ListNotations.
Local Open Scope nat_scope.

(** The result (best_operator, best_com_norm, operators, com_norms); [None] is infinity. *)
Definition search_result : Set := Operator * option GC * list Operator * list GC.
(** algorithms.py:214-219, 272-277, 365-370, 564-569: the initial values of the four variables. *)
Definition not_started (init : Operator) : search_result := (init, None, [], []).

(** algorithms.py:221-231: one step of [selected_ci_simple].  The name [liouvillian_matrix] of line
    231 is not imported (15-19). *)
Definition simple_step (H : Operator) (b : Basis) : res Empty_set :=
  let! (_, e1) := structure_constants MCommutator tol16 b (o_basis H) in
  let b1 := basis_iadd b e1 in
  let! (_, e2) := structure_constants MCommutator tol16 b1 (o_basis H) in
  Err NameError.
(** algorithms.py:208-254. *)
Definition selected_ci_simple (init H : Operator) (num_steps : nat) : res search_result :=
  match num_steps with
  | 0 => Ok (not_started init)
  | S _ => let! f := simple_step H (basis_iadd basis_empty (o_basis init)) in match f : Empty_set with end
  end.

(** algorithms.py:48-75: [_l_matrix(s_constants, H)] and [_com_matrix(s_constants, H)], where
    [s_constants] is the sparse matrix returned by [_explore] instead of the dictionary of
    structure constants: an OperatorString is not an index of a sparse matrix; if there are no
    terms, the dimensions of the matrix cannot be inferred. *)
Definition l_matrix_of_matrix (s_constants : smat) (H : Operator) : res Empty_set :=
  match op_terms H with [] => Err ValueError | _ => Err IndexError end.

(** [set(a.op_strings) == set(b.op_strings)] *)
Definition same_set (a b : Basis) : bool :=
  forallb (basis_mem b) (b_strings a) && forallb (basis_mem a) (b_strings b).

(** algorithms.py:257-344: [selected_ci].  In the first step [previous_previous_basis] is None.  The
    optional arguments are only used after line 302. *)
Definition selected_ci (init H : Operator) (num_steps : nat) (x : cache) : res search_result :=
  match num_steps with
  | 0 => Ok (not_started init)
  | S _ =>
      let b := basis_iadd basis_empty (o_basis init) in
      let! (_, e1, x1) := explore b H x None in
      let! (_, e2, x2) := explore e1 H x1 None in
      let b' := basis_iadd b e2 in
      if same_set b' b then Ok (not_started init)
      else
        let! (L, _, _) := explore b' H x2 None in
        let! f := l_matrix_of_matrix L H in match f : Empty_set with end
  end.

(** algorithms.py:349-350, 544-545: all labels of the strings, and [np.max] of them. *)
Definition all_labels (b : Basis) : list Z := flat_map os_labels (b_strings b).
Definition np_max (l : list Z) : res Z := match l with [] => Err ValueError | a :: r => Ok (fold_left Z.max r a) end.
Definition np_min (l : list Z) : res Z := match l with [] => Err ValueError | a :: r => Ok (fold_left Z.min r a) end.

(** algorithms.py:385-440: one site; [prev] is previous_basis, the result is the new Basis and
    the cache.  [pre_filter_fun] is a function on Bases. *)
Definition sweep_site (H : Operator) (pre : option (Basis -> res Basis)) (m : Z) (prev : Basis) (acc : Basis * cache) (site : Z) : res (Basis * cache) :=
  let '(b, x) := acc in
  let sites1 := [site; Z.min (site + 1) m] in
  let sites2 := [Z.max 0 (site - 1); site; Z.min (site + 1) m; Z.min (site + 2) m] in
  let! (_, e1, x1) := explore b H x (Some sites1) in
  let! (_, e2, x2) := explore e1 H x1 (Some sites2) in
  let! b' := match pre with Some f => f (basis_iadd b e2) | None => Ok (basis_iadd b e2) end in
  if same_set b' prev then Ok (b', x2)
  else
    let! (L, _, _) := explore b' H x2 None in
    let! f := l_matrix_of_matrix L H in match f : Empty_set with end.
(** algorithms.py:375-383, 533: one sweep; [up] is whether [direction] is 1. *)
Definition sweep_once (H : Operator) (pre : option (Basis -> res Basis)) (m : Z) (prev : Basis) (up : bool) (acc : Basis * cache) : res (Basis * cache) :=
  let labels := all_labels (fst acc) in
  let! site0 := np_min labels in
  let! sitef := np_max labels in
  let sites := map (fun i => (site0 + Z.of_nat i)%Z) (seq 0 (Z.to_nat (sitef + 1 - site0))) in
  rfold (sweep_site H pre m prev) (if up then sites else rev sites) acc.
Fixpoint sweeps (H : Operator) (pre : option (Basis -> res Basis)) (m : Z) (prev : Basis) (n : nat) (up : bool) (acc : Basis * cache) : res (Basis * cache) :=
  match n with
  | 0 => Ok acc
  | S k => let! acc' := sweep_once H pre m prev up acc in sweeps H pre m prev k (negb up) acc'
  end.
(** algorithms.py:347-535: [selected_ci_sweep].  The remaining optional arguments are only used
    after line 440 or when an Operator has been recorded. *)
Definition selected_ci_sweep (init H : Operator) (num_sweeps : nat) (pre : option (Basis -> res Basis)) (x : cache) : res search_result :=
  let! m := np_max (all_labels (o_basis H)) in
  let b := basis_iadd basis_empty (o_basis init) in
  let! _ := sweeps H pre m b num_sweeps true (b, x) in
  Ok (not_started init).

(** algorithms.py:542-653: [selected_ci_greedy_simple]. *)
Definition selected_ci_greedy_simple (init H : Operator) (num_steps : nat) (x : cache) : res search_result :=
  let! _ := np_max (all_labels (o_basis H)) in
  match num_steps with
  | 0 => Ok (not_started init)
  | S _ =>
      let! (L, _, _) := explore (basis_iadd basis_empty (o_basis init)) H x None in
      let! f := l_matrix_of_matrix L H in match f : Empty_set with end
  end.
