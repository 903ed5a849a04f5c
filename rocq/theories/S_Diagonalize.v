(** Specifications for diagonalize. *)
From Coq Require Import List ZArith NArith Bool Arith Reals Qcanon Sorted.
From Coquelicot Require Import Complex.
From Verif Require Import GC M_OpString M_Basis M_OpAlg M_Core S_Den S_Basis S_Built S_Diag S_LinAlg S_Core S_Conv.
Import ListNotations.

(** The matrix of Σ z S on n spins. *)
Definition matrix_of (n : nat) (ts : list (GC * OS)) (r c : N) : GC :=
  gsum (map (fun t => gmul (fst t) (string_matrix n (snd t) r c)) ts).
(** (H v)_r *)
Definition image (n : nat) (H : N -> N -> GC) (v : list C) (r : N) : C :=
  fold_right Cplus (RtoC 0) (map (fun c => to_C (H r c) * nth (N.to_nat c) v (RtoC 0))%C (all_confs n)).
Definition eigenvector (n : nat) (H : N -> N -> GC) (l : C) (v : list C) : Prop :=
  length v = (2 ^ n)%nat /\ v <> repeat (RtoC 0) (2 ^ n) /\
  forall r, configuration n r -> image n H v r = (l * nth (N.to_nat r) v (RtoC 0))%C.
(** <w|H|w> *)
Definition energy (n : nat) (H : N -> N -> GC) (w : list C) : R :=
  fst (inner w (map (image n H w) (all_confs n))).

(** The matrix as a list of rows; Hermitian matrices. *)
Definition rows_of (n : nat) (H : N -> N -> GC) : list (list C) :=
  map (fun r => map (fun c => to_C (H r c)) (all_confs n)) (all_confs n).
Definition hermitian_matrix (n : nat) (H : N -> N -> GC) : Prop := mat_eq n (adjoint H) H.

(** The eigensolver for Hermitian matrices is exact on this one. *)
Definition exact_eigh (eig : option nat -> list (list C) -> list (R * list C)) (n : nat) (H : N -> N -> GC) : Prop :=
  hermitian_matrix n H ->
    (full_solution (rows_of n H) (eig None (rows_of n H)) /\ orthonormal (map snd (eig None (rows_of n H)))) /\
    forall k, (k < 2 ^ n)%nat -> lowest_solution k (rows_of n H) (eig (Some k) (rows_of n H)) /\ orthonormal (map snd (eig (Some k) (rows_of n H))).

(** Orthonormal eigenvectors, in the order of their eigenvalues. *)
Definition ordered_levels (n : nat) (H : N -> N -> GC) (ps : list (R * list C)) : Prop :=
  (forall l v, In (l, v) ps -> eigenvector n H (RtoC l) v) /\ orthonormal (map snd ps) /\ StronglySorted Rle (map fst ps).
(** All of them. *)
Definition all_levels (n : nat) (H : N -> N -> GC) (ps : list (R * list C)) : Prop :=
  length ps = (2 ^ n)%nat /\
  (forall mu w, eigenvector n H mu w -> exists l v, In (l, v) ps /\ mu = RtoC l) /\
  (forall l v rest, ps = (l, v) :: rest -> forall w, length w = (2 ^ n)%nat -> (l * norm2c w <= energy n H w)%R).
(** The [k] lowest ones: an eigenvector that is not in their span has an eigenvalue above all of them. *)
Definition lowest_levels (n : nat) (k : nat) (H : N -> N -> GC) (ps : list (R * list C)) : Prop :=
  length ps = k /\
  forall mu w, eigenvector n H (RtoC mu) w -> span (2 ^ n) (map snd ps) w \/ forall l v, In (l, v) ps -> (l <= mu)%R.

(** Hermitian strings of [n] orbitals, of any type, whose conversion to Pauli strings is not empty. *)
Definition hermitian_string (n : nat) (s : OS) : Prop :=
  std s /\ labels_in n s /\
  match os_type s with
  | Fermion => exists I J, fermion_form I J s /\ NoDup I /\ NoDup J /\ (I = J \/ (orbitals I J <= 51)%nat) /\
      (I = J -> pval (os_pref s) = g1) /\ produces I J (pval (os_pref s)) false
  | ty => string_ok ty s
  end.
(** A Hermitian Operator of [n] orbitals. *)
Definition hermitian_operator (n : nat) (o : Operator) : Prop :=
  made o /\ (forall z, In z (o_coeffs o) -> im z = 0%Qc) /\ forall s, In s (b_strings (o_basis o)) -> hermitian_string n s.
