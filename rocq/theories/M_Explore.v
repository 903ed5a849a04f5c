(** Model of parts of qosy/algorithms.py: the caching exploration and the truncations. *)
From Coq Require Import List ZArith Bool Arith QArith Qcanon.
From Verif Require Import GC Exn M_OpString M_Algebra M_Basis M_OpAlg.
Import ListNotations.
Local Open Scope nat_scope.

(** Structure-constant data of one string: the lists (row_inds, col_inds, data), zipped. *)
Notation trips := (list (nat * nat * GC)) (only parsing).
(** The mutable arguments explored_basis, explored_extended_basis, explored_s_constants_data of
    [_explore], threaded through as a value. *)
Record cache : Set := mkCache { x_basis : Basis; x_ext : Basis; x_data : list (OS * trips) }.
(** algorithms.py:263-265 *)
Definition cache_empty : cache := mkCache basis_empty basis_empty [].

(** algebra.py:243-331: [structure_constants] with return_data_tuple=True and the defaults. *)
Definition structure_data (A B : Basis) : res (list (OS * trips) * Basis) :=
  let! (C, md) := sc_outer MCommutator tol16 (b_strings A) (b_strings B) basis_empty [] in Ok (md, C).

(** algorithms.py:140-142: new positions of the unexplored data (row and column indices are
    computed one entry at a time). *)
Definition relocate (U UE X E : Basis) (t : nat * nat * GC) : res (nat * nat * GC) :=
  let! e := of_option IndexError (nth_error (b_strings UE) (fst (fst t))) in
  let! r := basis_index E e in
  let! b := of_option IndexError (nth_error (b_strings U) (snd (fst t))) in
  let! c := basis_index X b in
  Ok (r, c, snd t).
Definition old_data (d : list (OS * trips)) (s : OS) : trips :=
  match dget os_key d s with Some ts => ts | None => [] end.
(** algorithms.py:138-155: one term of the Hamiltonian. *)
Definition update_data (ud : list (OS * trips)) (U UE X E : Basis) (d : list (OS * trips)) (t : GC * OS) : res (list (OS * trips)) :=
  let! uts := of_option KeyError (dget os_key ud (snd t)) in
  let! new := rmap (relocate U UE X E) uts in
  Ok (dset os_key d (snd t) (old_data d (snd t) ++ new)).
(** algorithms.py:127-155: the first half of [_explore]. *)
Definition explore_update (basis : Basis) (H : Operator) (st : cache) : res cache :=
  let! U := basis_new (filter (fun s => negb (basis_mem (x_basis st) s)) (b_strings basis)) in
  let! (ud, UE) := structure_data U (o_basis H) in
  let X := basis_iadd (x_basis st) U in
  let E := basis_iadd (x_ext st) UE in
  let! d := rfold (update_data ud U UE X E) (op_terms H) (x_data st) in
  Ok (mkCache X E d).

(** algorithms.py:160-162, 178-180: the dictionary inverting a list of positions. *)
Definition inverse_dict (inds : list nat) : list (nat * nat) :=
  fold_left (fun d p => dset Nat.eqb d (snd p) (fst p)) (combine (seq 0 (length inds)) inds) [].
(** algorithms.py:170, 191: is the term considered? *)
Definition considered (allowed : option (list Z)) (s : OS) : bool :=
  match allowed with
  | None => true
  | Some ls => existsb (fun l => existsb (Z.eqb l) ls) (os_labels s)
  end.
(** algorithms.py:174-177: one entry; the state is extended_basis and inds_extended_basis_to_x. *)
Definition extend_entry (E : Basis) (x2b : list (nat * nat)) (acc : Basis * list nat) (t : nat * nat * GC) : res (Basis * list nat) :=
  if dmem Nat.eqb x2b (snd (fst t)) then
    let! e := of_option IndexError (nth_error (b_strings E) (fst (fst t))) in
    if basis_mem (fst acc) e then Ok acc
    else Ok (basis_iadd_string (fst acc) e, snd acc ++ [fst (fst t)])
  else Ok acc.
(** algorithms.py:164-177. *)
Definition extend_term (allowed : option (list Z)) (st : cache) (x2b : list (nat * nat)) (acc : Basis * list nat) (t : GC * OS)
  : res (Basis * list nat) :=
  if considered allowed (snd t) then
    let! ts := of_option KeyError (dget os_key (x_data st) (snd t)) in
    rfold (extend_entry (x_ext st) x2b) ts acc
  else Ok acc.
(** algorithms.py:191-201: the matrix entries of one term. *)
Definition matrix_term (allowed : option (list Z)) (st : cache) (x2b x2e : list (nat * nat)) (acc : trips) (t : GC * OS) : res trips :=
  if considered allowed (snd t) then
    let! ts := of_option KeyError (dget os_key (x_data st) (snd t)) in
    Ok (acc ++ flat_map (fun u : nat * nat * GC =>
      match dget Nat.eqb x2b (snd (fst u)), dget Nat.eqb x2e (fst (fst u)) with
      | Some c, Some r => [(r, c, gmul (fst t) (snd u))]
      | _, _ => []
      end) ts)
  else Ok acc.
(** algorithms.py:122-205: [_explore], returning the matrix, the extended basis and the new cache. *)
Definition explore (basis : Basis) (H : Operator) (st : cache) (allowed : option (list Z)) : res (smat * Basis * cache) :=
  let! st' := explore_update basis H st in
  let! b2x := rmap (basis_index (x_basis st')) (b_strings basis) in
  let x2b := inverse_dict b2x in
  let! (ext, inds) := rfold (extend_term allowed st' x2b) (op_terms H) (basis_empty, []) in
  let x2e := inverse_dict inds in
  let! ts := rfold (matrix_term allowed st' x2b x2e) (op_terms H) [] in
  let! L := sm_make (basis_len ext) (basis_len basis) ts in
  Ok (L, ext, st').

(** algorithms.py:21-39: [_truncate_basis] without filter.  [perm] is the result of
    [np.argsort(np.abs(abs_coeffs))]; the order of equal values is up to numpy. *)
Definition truncate_inds (vec : list GC) (perm : list nat) (thr : Qc) (size : nat) : res (list nat) :=
  let! inds := rmap (fun i => let! c := of_option IndexError (nth_error vec i) in Ok (i, c)) (rev perm) in
  Ok (firstn size (map fst (filter (fun p => abs_gtb (snd p) thr) inds))).
Definition truncate_basis (basis : Basis) (vec : list GC) (perm : list nat) (thr : Qc) (size : nat) : res Basis :=
  let! inds := truncate_inds vec perm thr size in
  let! l := rmap (fun i => of_option IndexError (nth_error (b_strings basis) i)) inds in
  basis_new l.
(** algorithms.py:41-46: [_truncate_operator]. *)
Definition truncate_operator (o : Operator) (perm : list nat) (thr : Qc) (size : nat) : res Operator :=
  let! b := truncate_basis (o_basis o) (o_coeffs o) perm thr size in
  let! cs := rmap (fun s => let! i := basis_index (o_basis o) s in of_option IndexError (nth_error (o_coeffs o) i)) (b_strings b) in
  op_new cs (b_strings b) None.
(** algorithms.py:1022-1028: the truncation inside [selected_ci_greedy]: the Basis is replaced before
    the coefficients are looked up in it.  Here [vector] is evecs[:,0] (no target operator). *)
Definition greedy_truncate (basis : Basis) (vec : list GC) (perm : list nat) (thr : Qc) (size : nat) : res (Basis * Operator) :=
  let! b := truncate_basis basis vec perm thr size in
  let! cs := rmap (fun s => let! i := basis_index b s in of_option IndexError (nth_error vec i)) (b_strings b) in
  let! o := op_new cs (b_strings b) None in
  Ok (b, o).
