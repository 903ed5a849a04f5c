(** algorithms.py: the matrices made from a dictionary of structure constants. *)
From Coq Require Import List ZArith Bool Arith.
From Verif Require Import GC Exn M_OpString M_Algebra M_Basis M_OpAlg.
Import ListNotations.
Local Open Scope nat_scope.

(** The argument [s_constants] of algorithms.py:48-75: for each string the lists
    [(ext_basis_inds, basis_inds, s_data)]. *)
Definition sc_dict : Type := list (OS * (list nat * list nat * list GC)).

(** [zip(ext_basis_inds, basis_inds, s_data)], which stops at the end of the shortest list. *)
Definition sc_zip (e : list nat * list nat * list GC) : list (nat * nat * GC) :=
  combine (combine (fst (fst e)) (snd (fst e))) (snd e).

(** [csr_matrix((data, (rows, cols)))] without a shape: the dimensions are the largest indices plus
    one; scipy raises a ValueError if there are no indices. *)
Definition sm_infer (ts : list (nat * nat * GC)) : res smat :=
  match ts with
  | [] => Err ValueError
  | _ => Ok (mkSM (S (list_max (map (fun t => fst (fst t)) ts))) (S (list_max (map (fun t => snd (fst t)) ts))) ts)
  end.

(** algorithms.py:48-65: [_l_matrix]. *)
Definition l_matrix (sc : sc_dict) (o : Operator) : res smat :=
  let! ts := rfold (fun acc t =>
      let! e := of_option KeyError (dget os_key sc (snd t)) in
      Ok (acc ++ map (fun x => (fst x, gmul (fst t) (snd x))) (sc_zip e))) (op_terms o) [] in
  sm_infer ts.

(** algorithms.py:67-75: [_com_matrix]. *)
Definition com_matrix (sc : sc_dict) (o : Operator) : res smat :=
  let! L := l_matrix sc o in sm_dot (sm_adj L) L.
