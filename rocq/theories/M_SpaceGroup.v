(** Model of the transformations built from a Lattice (qosy/transformation.py:328-532) and of
    the use of distances in distance_basis (qosy/basis.py:915-922). *)
From Coq Require Import String List ZArith Bool Arith QArith Qcanon.
From Verif Require Import GC Exn M_OpString M_Tools M_Basis M_Lattice M_Transform.
Import ListNotations.
Local Open Scope Qc_scope.

(** [np.dot(R, r)]: a matrix is the list of its rows. *)
Fixpoint dot (u v : pvec) : Qc :=
  match u, v with x :: u', y :: v' => x * y + dot u' v' | _, _ => 0 end.
Definition mat_vec (R : list pvec) (r : pvec) : pvec := map (fun row => dot row r) R.

(** transformation.py:353-357, 385-389: the list of labels, and the check for -1. *)
Definition check_labels (l : list Z) : res (list Z) :=
  if existsb (Z.eqb (-1)) l then Err ValueError else Ok l.

Section Show.
  Variable show : pvec -> string.

  (** transformation.py:353-357: the permutation of [space_group_symmetry]. *)
  Definition space_group_labels (L : Lattice) (R : list pvec) (d : pvec) : res (list Z) :=
    check_labels (map (fun o : orbital => l_index show L (padd (mat_vec R (fst (fst o))) d) (snd (fst o))) (l_orbitals L)).
  (** transformation.py:328-361: [space_group_symmetry]. *)
  Definition space_group_symmetry (L : Lattice) (R : list pvec) (d : pvec) : res rule :=
    let! p := space_group_labels L R d in Ok (label_permutation p).

  (** transformation.py:385-389: the permutation of [spin_flip_symmetry]. *)
  Definition spin_flip_labels (L : Lattice) (up dn : string) : res (list Z) :=
    check_labels (map (fun o : orbital => l_index show L (fst (fst o)) (swap (snd (fst o)) up dn)) (l_orbitals L)).
  (** transformation.py:363-394: [spin_flip_symmetry]. *)
  Definition spin_flip_symmetry (L : Lattice) (up dn : string) : res rule :=
    let! p := spin_flip_labels L up dn in Ok (label_permutation p).

  (** [sub in s]. *)
  Fixpoint contains (sub s : string) : bool :=
    prefix sub s || match s with EmptyString => false | String _ s' => contains sub s' end.
  (** transformation.py:451-454: the labels of the orbitals whose name contains a given text.
      The set is a list (only membership is used). *)
  Definition labels_named (L : Lattice) (sub : string) : list Z :=
    map (fun o : orbital => l_index show L (fst (fst o)) (snd (fst o)))
        (filter (fun o : orbital => contains sub (snd (fst o))) (l_orbitals L)).
  (** transformation.py:430-458: [spin_parity_symmetry] (the up labels have no effect). *)
  Definition spin_parity_symmetry (L : Lattice) (up dn : string) : rule := sz_rule (labels_named L dn).

  (** transformation.py:507-532: [time_reversal] with its argument. *)
  Inductive spin_info : Set :=
  | SpinNone | SpinLattice (L : Lattice) | SpinNames (L : Lattice) (up dn : string) | SpinOther.
  Definition spinful (L : Lattice) (up dn : string) : res rule :=
    let! Sx := spin_flip_symmetry L up dn in
    Ok (tmul (tmul Sx (spin_parity_symmetry L up dn)) time_reversal_rule).
  Definition time_reversal_of (i : spin_info) : res rule :=
    match i with
    | SpinNone => Ok time_reversal_rule
    | SpinLattice L => spinful L "Up" "Dn"
    | SpinNames L up dn => spinful L up dn
    | SpinOther => Err ValueError
    end.
End Show.

(** basis.py:915-925: [lattice.distance(i,j) <= R+tol] for orbital labels; [r] stands for
    R + tol = R + 1e-10; a distance is at most r if r is not negative and the square is at most r*r.  For labels of
    the lattice [distance] does not raise. *)
Definition within_distance (L : Lattice) (r : Qc) (i j : nat) : bool :=
  match l_dist2 L (PosInt (Z.of_nat i)) (PosInt (Z.of_nat j)) with
  | Ok x => negb (qc_ltb r 0) && negb (qc_ltb (r * r) x)
  | Err _ => false
  end.
