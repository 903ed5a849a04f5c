(** Model of [symmetrize_lattice] (qosy/symmetrization.py:103-289). *)
From Coq Require Import String List ZArith Bool Arith QArith Qcanon.
From Verif Require Import GC Exn M_OpString M_Tools M_Basis M_Lattice M_SpaceGroup.
Import ListNotations.
Local Open Scope Qc_scope.

(** [np.dot(A, B)] of two matrices (lists of rows) and [np.eye(d)]. *)
Definition mat_col (B : list pvec) (j : nat) : pvec := map (fun r => nth j r 0) B.
Definition mat_mul (A B : list pvec) : list pvec :=
  map (fun row => map (fun j => dot row (mat_col B j)) (seq 0 (length (hd [] B)))) A.
Definition mat_eye (d : nat) : list pvec := map (unit_vec d) (seq 0 d).

(** [np.allclose(A, B, atol=tol)] (tools.py:333): |a - b| <= tol + 1e-5 |b| entrywise. *)
Definition qabs (x : Qc) : Qc := if qc_ltb x 0 then - x else x.
Definition close (tol : Qc) (a b : Qc) : bool := negb (qc_ltb (tol + Q2Qc (1 # 100000) * qabs b) (qabs (a - b))).
Definition allclose (tol : Qc) (A B : list pvec) : bool :=
  forallb (fun p => forallb (fun q => close tol (fst q) (snd q)) (combine (fst p) (snd p))) (combine A B).
(** tools.py:305: the default tol. *)
Definition tol12q : Qc := Q2Qc (1 # 1000000000000).

(** symmetrization.py:246-255: the loop building the point group; [None] if [fuel] does not
    suffice (the loop of the code need not end). *)
Fixpoint group_loop (fuel : nat) (gens G newG : list (list pvec)) : option (list (list pvec)) :=
  if Nat.eqb (length newG) (length G) then Some G
  else match fuel with
       | O => None
       | S f => group_loop f gens newG
                  (remove_duplicates (allclose tol12q) (flat_map (fun g => map (fun s => mat_mul g s) gens) newG))
       end.
Definition point_group (fuel d : nat) (gens : list (list pvec)) : option (list (list pvec)) :=
  group_loop fuel gens [mat_eye d] (mat_eye d :: gens).

Section Show.
  Variable show : pvec -> string.
  (** The permutation found by [argsort(distances, comp=_comp)] (symmetrization.py:122-142): the
      comparison uses a tolerance, so the order is left open; only that it is a permutation of the
      positions matters. *)
  Variable order : list (pvec * list string) -> list nat.

  (** [Lattice(unit_cell, (1,)*dim, periodic_boundaries=...)] with default precision. *)
  Definition one_cell (L : Lattice) (uc : UnitCell) : res Lattice :=
    lattice_new show uc (repeat 1%Z (l_dim L)) (Some (l_periodic L)) tol8.

  (** symmetrization.py:108-118. *)
  Definition sym_atoms (G : list (list pvec)) (ats : list (pvec * list string)) : list (pvec * list string) :=
    flat_map (fun a => map (fun g => (mat_vec g (fst a), snd a)) G) ats.
  (** symmetrization.py:145-147, 197-199: a unit cell with the given atoms. *)
  Definition cell_of (vs : list pvec) (ats : list (pvec * list string)) : UnitCell :=
    fold_left (fun uc a => add_atom uc (fst a) (Some (snd a))) ats (uc_new vs None None).
  Definition cell_atoms (L : Lattice) : list (pvec * list string) := combine (uc_positions (l_cell L)) (uc_orbitals (l_cell L)).
  (** symmetrization.py:103-151: [_symmetrize_atoms]. *)
  Definition symmetrize_atoms (L : Lattice) (G : list (list pvec)) : res Lattice :=
    let info := sym_atoms G (cell_atoms L) in
    let! sorted := rmap (fun i => of_option IndexError (nth_error info i)) (order info) in
    one_cell L (cell_of (uc_vectors (l_cell L)) sorted).

  Fixpoint add_at (vs : list pvec) (k : nat) (d : pvec) : list pvec :=
    match vs, k with
    | [], _ => []
    | v :: r, O => padd v d :: r
    | v :: r, S k' => v :: add_at r k' d
    end.
  (** symmetrization.py:153-174: [_expand_lattice].  The in-place change of the lattice vectors of
      the argument is returned as a new value of the argument; the new lattice has the same vectors.
      The stale orbitals of the changed argument are not read any more. *)
  Definition expand_lattice (L : Lattice) (k : nat) (delta : pvec) : res (Lattice * Lattice) :=
    let uc := l_cell L in
    let vs := add_at (uc_vectors uc) k delta in
    let L' := mkLattice (mkUC vs (uc_positions uc) (uc_orbitals uc)) (l_ncells L) (l_periodic L) (l_tol L) (l_orbitals L) (l_indices L) (l_bvecs L) in
    let! N := one_cell L (mkUC vs (uc_positions uc ++ map (padd delta) (uc_positions uc)) (uc_orbitals uc ++ uc_orbitals uc)) in
    Ok (L', N).

  (** symmetrization.py:176-203: [_remove_duplicate_atoms]; [distance] of two positions never raises. *)
  Definition same_atom (L : Lattice) (tol : Qc) (a b : pvec * list string) : bool :=
    match l_dist2 L (PosVec (fst a)) (PosVec (fst b)) with
    | Ok d => qc_ltb d (tol * tol) && list_eqb String.eqb (snd a) (snd b)
    | Err _ => false
    end.
  Definition remove_duplicate_atoms (L : Lattice) (tol : Qc) : res Lattice :=
    one_cell L (cell_of (uc_vectors (l_cell L)) (remove_duplicates (same_atom L tol) (cell_atoms L))).

  (** symmetrization.py:271-275: one round over the lattice vectors; [new] is unbound at first. *)
  Definition expand_step (st : Lattice * option Lattice) (p : nat * pvec) : res (Lattice * option Lattice) :=
    let! (old, N) := expand_lattice (fst st) (fst p) (snd p) in Ok (old, Some N).
  (** symmetrization.py:266-287: the expansions. *)
  Fixpoint expansions (n : nat) (G : list (list pvec)) (tol : Qc) (deltas : list pvec) (old : Lattice) (new : option Lattice) : res Lattice :=
    match n with
    | O => of_option NameError new
    | S m =>
        let! (_, new1) := rfold expand_step (combine (seq 0 (length deltas)) deltas) (old, new) in
        let! N := of_option NameError new1 in
        let! N2 := symmetrize_atoms N G in
        let! N3 := remove_duplicate_atoms N2 tol in
        expansions m G tol deltas N3 (Some N3)
    end.
  (** symmetrization.py:206-289: [symmetrize_lattice]; [None] if the group loop does not end.
      [np.dot] of matrices and vectors of unequal size (ValueError) is not modelled. *)
  Definition symmetrize_lattice (fuel : nat) (L : Lattice) (gens : list (list pvec)) (n : nat) (tol : Qc) : option (res Lattice) :=
    match point_group fuel (l_dim L) gens with
    | None => None
    | Some G => Some (expansions n G tol (uc_vectors (l_cell L)) L None)
    end.
End Show.
