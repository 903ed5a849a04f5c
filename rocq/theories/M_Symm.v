(** Model of the basis part of qosy/symmetrization.py. *)
From Coq Require Import List ZArith Bool Arith QArith Qcanon.
From Verif Require Import GC Exn M_OpString M_Tools M_Algebra M_Basis M_Transform.
Import ListNotations.
Local Open Scope nat_scope.

(** The [info] of the transformations: permutations of 0, 1, ... as lists of naturals. *)
Definition perm_of (p : list nat) : rule := label_permutation (map Z.of_nat p).

(** [perm_tuple not in newG_set]; [newG_set] always holds the permutations of [newG]. *)
Fixpoint perm_eqb (p q : list nat) : bool :=
  match p, q with
  | [], [] => true
  | x :: p', y :: q' => Nat.eqb x y && perm_eqb p' q'
  | _, _ => false
  end.
Definition perm_mem (p : list nat) (G : list (list nat)) : bool := existsb (perm_eqb p) G.

(** symmetrization.py:73-79: [for g in G], from position [i] on.  [G] and [newG] are the same
    list object (line 68), so the loop also visits the elements it appends.  [None]: out of fuel. *)
Fixpoint group_pass (fuel : nat) (gen : list nat) (G : list (list nat)) (i : nat) : option (res (list (list nat))) :=
  match fuel with
  | O => None
  | S f =>
      match nth_error G i with
      | None => Some (Ok G)
      | Some g =>
          match compose_permutations g gen with
          | Err e => Some (Err e)
          | Ok p => group_pass f gen (if perm_mem p G then G else G ++ [p]) (S i)
          end
      end
  end.
(** Lines 72-79: [for gen in group_generators]. *)
Fixpoint group_passes (fuel : nat) (gens : list (list nat)) (G : list (list nat)) : option (res (list (list nat))) :=
  match gens with
  | [] => Some (Ok G)
  | gen :: r =>
      match group_pass fuel gen G 0 with
      | Some (Ok G') => group_passes fuel r G'
      | x => x
      end
  end.
(** symmetrization.py:58-79.  The first test of the [while] holds as there is a generator; after
    the first round [G] and [newG] are the same object, so there is no second round. *)
Definition symmetry_group (fuel : nat) (gens : list (list nat)) : option (res (list (list nat))) :=
  match gens with
  | [] => Some (Err IndexError)
  | gen :: _ => group_passes fuel gens (seq 0 (length gen) :: gens)
  end.

(** symmetrization.py:16-26: [_symmetrize_opstring]. *)
Definition symmetrize_opstring (s : OS) (G : list (list nat)) : res Operator :=
  let! z := op_new [] [] (Some (os_type s)) in
  rfold (fun acc g => let! n := apply (perm_of g) (TString s) in op_iadd acc n) G z.

(** basis.py:416-434: [normalize]; [root] is the square root. *)
Definition op_normalize (root : Qc -> Qc) (o : Operator) : Operator :=
  mkOperator (map (fun c => gdiv c (gq (root (op_norm2 o)))) (o_coeffs o)) (o_basis o) (o_type o).

(** symmetrization.py:83-101: the loop over the basis, with the set of visited strings. *)
Fixpoint symmetrize_loop (root : Qc -> Qc) (tol : Qc) (G : list (list nat)) (strs visited : list OS) : res (list Operator) :=
  match strs with
  | [] => Ok []
  | s :: r =>
      if existsb (fun v => os_key v s) visited then symmetrize_loop root tol G r visited
      else
        let! o := symmetrize_opstring s G in
        let! q := op_remove_zeros tol16 o in
        let! ops := symmetrize_loop root tol G r (visited ++ b_strings (o_basis o)) in
        Ok (if qc_ltb (tol * tol) (op_norm2 q) then op_normalize root q :: ops else ops)
  end.
(** symmetrization.py:28-101: [symmetrize_basis]. *)
Definition symmetrize_basis (fuel : nat) (root : Qc -> Qc) (tol : Qc) (b : Basis) (gens : list (list nat)) : option (res (list Operator)) :=
  match symmetry_group fuel gens with
  | None => None
  | Some (Err e) => Some (Err e)
  | Some (Ok G) => Some (symmetrize_loop root tol G (b_strings b) [])
  end.
