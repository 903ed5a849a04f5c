(** Model of qosy/diagonalization.py:395-469, what [diagonalize_quadratic_tightbinding] and
    [diagonalize_bdg] do with their matrices (M_Quad.v).  No proofs.  Simplification: exact numbers. *)
From Coq Require Import List ZArith Bool Arith Reals.
From Coquelicot Require Import Complex.
From Verif Require Import GC Exn M_OpString M_Basis M_Quad M_LinAlg M_Core M_Greedy.
Import ListNotations.

(** The eigensolvers and [np.argsort]: [md_eigh None] is [nla.eigh], [md_eigh (Some (k, sigma))] is
    [ssla.eigsh(H, k=k, which='SA', sigma=sigma)]. *)
Record mdoracles : Type := mkMd { md_eigh : option (nat * option R) -> list vec -> list (R * vec); md_sort : list R -> list nat }.
(** [M.toarray()], the rows. *)
Definition z_array (M : zmat) : list vec :=
  map (fun i => map (fun j => to_C (zentry M (Z.of_nat i) (Z.of_nat j))) (seq 0 (z_dim M))) (seq 0 (z_dim M)).

(** diagonalization.py:367-401: [diagonalize_quadratic_tightbinding]; the result pairs evals[k] with
    evecs[:,k]. *)
Definition diagonalize_tightbinding (Or : mdoracles) (o : Operator) (n : nat) (nv : option nat) : res (list (R * vec)) :=
  let! M := tightbinding_matrix o n in
  Ok (md_eigh Or (match nv with None => None | Some k => Some (k, None) end) (z_array M)).

(** diagonalization.py:404-469: [diagonalize_bdg]; the result is energies and the columns of U and V.
    [threshold] is not used; [sigma] only with num_vecs. *)
Definition diagonalize_bdg (Or : mdoracles) (o : Operator) (n : nat) (sigma : option R) (nv : option nat) : res (list R * list vec * list vec) :=
  let! M := bdg_matrix o n in
  let ps := md_eigh Or (match nv with None => None | Some k => Some (k, sigma) end) (z_array M) in
  let! qs := take ps (md_sort Or (map fst ps)) in
  let low := firstn n qs in
  Ok (map (fun p => Rabs (fst p)) low, map (fun p => firstn n (snd p)) low, map (fun p => firstn n (skipn n (snd p))) low).
