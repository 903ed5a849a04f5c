(** Specifications for symmetrize_lattice. *)
From Coq Require Import String List ZArith Bool Arith Permutation QArith Qcanon.
From Verif Require Import GC Exn M_Lattice S_Lattice.
Import ListNotations.
Local Open Scope Qc_scope.

(** A lattice of dimension [d] with one list of orbitals for every atom. *)
Definition lattice_shape (d : nat) (L : Lattice) : Prop :=
  cell_shape d (l_cell L) /\ length (l_ncells L) = d /\ length (l_periodic L) = d /\
  length (uc_orbitals (l_cell L)) = length (uc_positions (l_cell L)).
Definition square_matrix (d : nat) (M : list (list Qc)) : Prop := length M = d /\ forall r, In r M -> length r = d.
(** The image of a point, and the product of two matrices, entry by entry. *)
Definition qsum (l : list Qc) : Qc := fold_right Qcplus 0 l.
Definition entry (M : list (list Qc)) (i j : nat) : Qc := nth j (nth i M []) 0.
Definition maps_to (d : nat) (M : list (list Qc)) (p q : list Qc) : Prop :=
  length q = d /\ forall i, (i < d)%nat -> coord q i = qsum (map (fun j => entry M i j * coord p j) (seq 0 d)).
Definition is_product (d : nat) (A B C : list (list Qc)) : Prop :=
  square_matrix d C /\ forall i k, (i < d)%nat -> (k < d)%nat -> entry C i k = qsum (map (fun j => entry A i j * entry B j k) (seq 0 d)).
Definition magnitude (x : Qc) : Qc := if Qclt_le_dec x 0 then - x else x.
(** The entries of two matrices differ by more than the tolerances 1e-12 and 1e-5 of numpy. *)
Definition differ (d : nat) (A B : list (list Qc)) : Prop :=
  exists i j, (i < d)%nat /\ (j < d)%nat /\ Q2Qc (1 # 1000000000000) + Q2Qc (1 # 100000) * magnitude (entry B i j) < magnitude (entry A i j - entry B i j).
(** Two points are closer than [tol] in the lattice. *)
Definition near (L : Lattice) (tol : Qc) (p q : list Qc) : Prop :=
  exists e, l_dist2 L (PosVec p) (PosVec q) = Ok e /\ e < tol * tol.
(** A way to sort any list of atoms. *)
Definition ordering (order : list (list Qc * list string) -> list nat) : Prop :=
  forall l, Permutation (order l) (seq 0 (length l)).
