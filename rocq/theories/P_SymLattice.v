(** Property C67: symmetrize_lattice. *)
From Coq Require Import String List ZArith Bool Arith Lia Permutation QArith Qcanon.
From Verif Require Import GC Exn M_Lattice M_SymLattice S_Lattice S_SymLattice L_Show L_SymLattice L_SymLattice2.
Import ListNotations.
Local Open Scope Qc_scope.

(** C67: [G] is the list of matrices found by the loop over the generators.  If h g is in [G] for
    every g in [G], the unit cell returned is symmetric under h up to the tolerance: the image of
    every atom has an atom with the same orbitals closer than [tol]. *)
Theorem C67_symmetric : forall show order d fuel L gens n tol G, ordering order -> lattice_shape d L -> (0 < d)%nat -> (forall g, In g gens -> square_matrix d g) -> 0 < tol ->
  point_group fuel d gens = Some G ->
  exists R, symmetrize_lattice show order fuel L gens (S n) tol = Some (Ok R) /\ lattice_shape d R /\
    (forall h, square_matrix d h -> (forall g, In g G -> exists hg, is_product d h g hg /\ In hg G) ->
       forall p o p', In (p, o) (atoms (l_cell R)) -> maps_to d h p p' -> exists q, In (q, o) (atoms (l_cell R)) /\ near R tol p' q).
Proof. exact symmetrize_ok. Qed.
Print Assumptions C67_symmetric.
(** One expansion: the lattice vectors are doubled; the atoms are, up to duplicates, the images under
    [G] of the atoms and of their copies shifted by the last lattice vector. *)
Theorem C67_one_expansion : forall show order d fuel L gens tol G, ordering order -> lattice_shape d L -> (0 < d)%nat -> (forall g, In g gens -> square_matrix d g) -> 0 < tol ->
  point_group fuel d gens = Some G ->
  exists R, symmetrize_lattice show order fuel L gens 1 tol = Some (Ok R) /\
    uc_vectors (l_cell R) = map (fun v => plus v v) (uc_vectors (l_cell L)) /\ l_periodic R = l_periodic L /\ l_ncells R = repeat 1%Z d /\
    (forall p o, In (p, o) (atoms (l_cell R)) -> exists g x y, In g G /\ In (x, o) (atoms (l_cell L)) /\ (y = x \/ y = plus (last (uc_vectors (l_cell L)) []) x) /\ maps_to d g y p) /\
    (forall g x y p o, In g G -> In (x, o) (atoms (l_cell L)) -> y = x \/ y = plus (last (uc_vectors (l_cell L)) []) x -> maps_to d g y p ->
       exists q, In (q, o) (atoms (l_cell R)) /\ near R tol p q).
Proof. exact one_expansion. Qed.
Print Assumptions C67_one_expansion.
(** The loop does not find the group: for one generator r other than its own square, [G] is the
    identity and r, whatever the order of r. *)
Theorem C67_one_generator_refuted : forall fuel d r rr, (0 < d)%nat -> square_matrix d r -> is_product d r r rr -> differ d rr r ->
  point_group (S fuel) d [r] = Some [mat_eye d; r].
Proof. exact single_generator. Qed.
Print Assumptions C67_one_generator_refuted.
(** So the cell returned for a four-fold rotation is not symmetric under that rotation. *)
Theorem C67_not_symmetric_refuted : exists L h R p o p', lattice_shape 2 L /\ square_matrix 2 h /\ (forall fuel, symmetrize_lattice show_exact in_order (S fuel) L [h] 1 tol12q = Some (Ok R)) /\
  In (p, o) (atoms (l_cell R)) /\ maps_to 2 h p p' /\ forall q o', In (q, o') (atoms (l_cell R)) -> ~ near R tol12q p' q.
Proof. exact not_symmetric. Qed.
Print Assumptions C67_not_symmetric_refuted.
(** And atoms are lost: the new cell has twice the size in both directions, but the copy of an atom
    shifted by the first lattice vector is missing. *)
Theorem C67_missing_atoms_refuted : exists L h R p o v, lattice_shape 2 L /\ square_matrix 2 h /\ (forall fuel, symmetrize_lattice show_exact in_order (S fuel) L [h] 1 tol12q = Some (Ok R)) /\
  In (p, o) (atoms (l_cell L)) /\ In v (uc_vectors (l_cell L)) /\ forall q o', In (q, o') (atoms (l_cell R)) -> ~ near R tol12q (plus v p) q.
Proof. exact missing_atoms. Qed.
Print Assumptions C67_missing_atoms_refuted.
(** With no expansions the result is unbound. *)
Theorem C67_zero_expansions : forall show order fuel L gens tol G, point_group fuel (l_dim L) gens = Some G ->
  symmetrize_lattice show order fuel L gens 0 tol = Some (Err NameError).
Proof. intros show order fuel L gens tol G E. unfold symmetrize_lattice. rewrite E. reflexivity. Qed.
Print Assumptions C67_zero_expansions.
(** Twofold rotation of a square lattice: the group is found and three expansions give a symmetric cell. *)
Example C67_example : exists R, symmetrize_lattice show_exact in_order 1 off_lattice [rot2] 3 tol12q = Some (Ok R) /\
  forall p o p', In (p, o) (atoms (l_cell R)) -> maps_to 2 rot2 p p' -> exists q, In (q, o) (atoms (l_cell R)) /\ near R tol12q p' q.
Proof.
  destruct (C67_symmetric show_exact in_order 2 1 off_lattice [rot2] 2 tol12q [mat_eye 2; rot2] in_order_ordering off_shape) as (R & E & _ & H).
  - lia.
  - intros g [<-|[] ]. apply rot2_square.
  - apply qc_ltb_lt. vm_compute. reflexivity.
  - apply rot2_group.
  - exists R. split; [exact E|]. apply H; [apply rot2_square|]. intros g [<-|[<-|[] ] ]; [exists rot2 | exists (mat_eye 2)]; split; try apply rot2_closed; cbn; auto.
Qed.
