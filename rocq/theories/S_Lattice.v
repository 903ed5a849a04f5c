(** Specifications for lattices. *)
From Coq Require Import String List ZArith Bool Arith QArith Qcanon.
From Verif Require Import GC M_Lattice.
Import ListNotations.
Local Open Scope Qc_scope.

Definition coord (p : list Qc) (i : nat) : Qc := nth i p 0.
(** Coordinate [i] of the combination of the vectors [vs] with the integers [z]. *)
Fixpoint combo (i : nat) (z : list Z) (vs : list (list Qc)) : Qc :=
  match z, vs with
  | c :: z', v :: vs' => Q2Qc (inject_Z c) * coord v i + combo i z' vs'
  | _, _ => 0
  end.
(** The point z_1 v_1 + z_2 v_2 + ... + a. *)
Definition crystal (d : nat) (vs : list (list Qc)) (z : list Z) (a : list Qc) : list Qc :=
  map (fun i => combo i z vs + coord a i) (seq 0 d).
(** Coordinates of absolute value at most [tol] replaced by zero. *)
Definition rounded (tol : Qc) (p : list Qc) : list Qc :=
  map (fun x => if Qclt_le_dec tol x then x else if Qclt_le_dec x (- tol) then x else 0) p.

(** Cells with coordinates 0 <= c_i < n_i, their number, and their position in the
    dictionary order. *)
Definition in_cells (ns c : list Z) : Prop := Forall2 (fun n x => (0 <= x < n)%Z) ns c.
Definition num_cells (ns : list Z) : nat := fold_right (fun n a => (Z.to_nat n * a)%nat) 1%nat ns.
Fixpoint rank (ns c : list Z) : nat :=
  match ns, c with
  | _ :: ns', x :: c' => (Z.to_nat x * num_cells ns' + rank ns' c')%nat
  | _, _ => 0%nat
  end.

(** Atoms of a unit cell with their orbitals; the number of orbitals of a cell, and of the
    atoms before atom [j]. *)
Definition atoms (uc : UnitCell) : list (list Qc * list string) := combine (uc_positions uc) (uc_orbitals uc).
Definition per_cell (ats : list (list Qc * list string)) : nat := list_sum (map (fun a => length (snd a)) ats).
(** The label of orbital [k] of atom [j] in the cell [c]. *)
Definition label_of (ns : list Z) (ats : list (list Qc * list string)) (c : list Z) (j k : nat) : nat :=
  (rank ns c * per_cell ats + per_cell (firstn j ats) + k)%nat.

(** A unit cell of dimension [d]: [d] lattice vectors, all vectors of length [d]. *)
Definition cell_shape (d : nat) (uc : UnitCell) : Prop :=
  length (uc_vectors uc) = d /\ (forall v, In v (uc_vectors uc) -> length v = d) /\
  (forall p, In p (uc_positions uc) -> length p = d).
(** No atom has two orbitals of the same name. *)
Definition names_differ (ats : list (list Qc * list string)) : Prop := forall a os, In (a, os) ats -> NoDup os.
(** The printed positions tell apart all copies, with coordinates up to [B], of the atoms that
    share an orbital name. *)
Definition told_apart (show : list Qc -> string) (tol : Qc) (d : nat) (vs : list (list Qc)) (ats : list (list Qc * list string)) (B : Z) : Prop :=
  forall z z' j j' a a' os os' name, length z = d -> length z' = d ->
    Forall (fun x => (Z.abs x <= B)%Z) z -> Forall (fun x => (Z.abs x <= B)%Z) z' ->
    nth_error ats j = Some (a, os) -> nth_error ats j' = Some (a', os') -> In name os -> In name os' ->
    show (rounded tol (crystal d vs z a)) = show (rounded tol (crystal d vs z' a')) -> z = z' /\ j = j'.

(** Coordinates that wrapping by at most one period brings back into the lattice, and where. *)
Fixpoint wrapped (ns : list Z) (per : list bool) (z : list Z) : Prop :=
  match ns, per, z with
  | [], _, [] => True
  | n :: ns', p :: per', x :: z' => (if p then - n <= x < 2 * n else 0 <= x < n)%Z /\ wrapped ns' per' z'
  | _, _, _ => False
  end.
Fixpoint home (ns z : list Z) : list Z :=
  match ns, z with n :: ns', x :: z' => (x mod n)%Z :: home ns' z' | _, _ => [] end.

(** [m] counts periods: nothing in open directions. *)
Fixpoint image (per : list bool) (m : list Z) : Prop :=
  match per, m with
  | [], [] => True
  | p :: per', x :: m' => (p = false -> x = 0%Z) /\ image per' m'
  | _, _ => False
  end.
Definition near_image (per : list bool) (m : list Z) : Prop := image per m /\ Forall (fun x => (-1 <= x <= 1)%Z) m.
(** The displacement by [m] periods. *)
Fixpoint periods (ns m : list Z) : list Z :=
  match ns, m with n :: ns', x :: m' => (x * n)%Z :: periods ns' m' | _, _ => [] end.
Definition shift (d : nat) (vs : list (list Qc)) (ns m : list Z) : list Qc := crystal d vs (periods ns m) (repeat 0 d).
(** Squared Euclidean distance. *)
Fixpoint sq_dist (p q : list Qc) : Qc :=
  match p, q with x :: p', y :: q' => (x - y) * (x - y) + sq_dist p' q' | _, _ => 0 end.
Definition plus (p q : list Qc) : list Qc := map (fun t => fst t + snd t) (combine p q).

(** Squared distance on a torus (periodic directions) with integer coordinates. *)
Fixpoint torus_dist2 (ns : list Z) (per : list bool) (c c' : list Z) : Z :=
  match ns, per, c, c' with
  | n :: ns', p :: per', x :: c1, y :: c2 =>
      let e := Z.abs (x - y) in
      let e := if p then Z.min e (n - e) else e in
      (e * e + torus_dist2 ns' per' c1 c2)%Z
  | _, _, _, _ => 0%Z
  end.
Definition no_tiny (tol : Qc) (p : list Qc) : Prop := forall x, In x p -> x = 0 \/ tol < x \/ x < - tol.

(** An orbital of the given name whose printed position is that of [p]. *)
Definition matches (show : list Qc -> string) (tol : Qc) (p : list Qc) (name : string) (o : orbital) : Prop :=
  show (fst (fst o)) = show (rounded tol p) /\ snd (fst o) = name.
(** [r] is the least squared distance of [q] from a copy of [p] moved by at most one period
    in each periodic direction. *)
Definition nearest2 (d : nat) (vs : list (list Qc)) (ns : list Z) (per : list bool) (p q : list Qc) (r : Qc) : Prop :=
  (forall m, length m = d -> near_image per m -> r <= sq_dist (plus p (shift d vs ns m)) q) /\
  (exists m, length m = d /\ near_image per m /\ r = sq_dist (plus p (shift d vs ns m)) q).
(** The text of a position tells integer vectors with coordinates up to [B] apart. *)
Definition shows_integers (show : list Qc -> string) (d : nat) (B : Z) : Prop :=
  forall z w, length z = d -> length w = d -> Forall (fun x => (Z.abs x <= B)%Z) z -> Forall (fun x => (Z.abs x <= B)%Z) w ->
    show (map qz z) = show (map qz w) -> z = w.
(** The label of orbital [k] of the cell [c] if every cell has [q] orbitals. *)
Definition cubic_label (ns : list Z) (q : nat) (c : list Z) (k : nat) : nat := (rank ns c * q + k)%nat.

(** The list [p] of labels sends every orbital to an orbital with the name [g name] at the
    place [f r], up to at most one period in each periodic direction. *)
Definition moved (show : list Qc -> string) (tol : Qc) (d : nat) (vs : list (list Qc)) (ns : list Z) (per : list bool)
    (orbs : list orbital) (f : list Qc -> list Qc) (g : string -> string) (p : list Z) : Prop :=
  length p = length orbs /\
  forall i r name c, nth_error orbs i = Some (r, name, c) ->
    exists i' r' c' m, nth_error p i = Some (Z.of_nat i') /\ nth_error orbs i' = Some (r', g name, c') /\
      length m = d /\ near_image per m /\ show r' = show (rounded tol (plus (f r) (shift d vs ns m))).
(** No two different orbitals are moved to the same place. *)
Definition stay_apart (show : list Qc -> string) (tol : Qc) (d : nat) (vs : list (list Qc)) (ns : list Z) (per : list bool)
    (orbs : list orbital) (f : list Qc -> list Qc) (g : string -> string) : Prop :=
  forall i i' r r' name name' c c' m m', nth_error orbs i = Some (r, name, c) -> nth_error orbs i' = Some (r', name', c') ->
    g name = g name' -> length m = d -> length m' = d -> near_image per m -> near_image per m' ->
    show (rounded tol (plus (f r) (shift d vs ns m))) = show (rounded tol (plus (f r') (shift d vs ns m'))) -> i = i'.
(** Every atom has, with an orbital, also the one with the exchanged name, and exchanging
    twice gives the name back. *)
Definition flip_closed (ats : list (list Qc * list string)) (g : string -> string) : Prop :=
  forall a os name, In (a, os) ats -> In name os -> In (g name) os /\ g (g name) = name.
(** The function that a list of labels stands for. *)
Definition perm_fun (p : list Z) (l : Z) : Z := nth (Z.to_nat l) p 0%Z.
(** The matrix product of R (its rows) with r, plus t. *)
Fixpoint inner (u v : list Qc) : Qc := match u, v with x :: u', y :: v' => x * y + inner u' v' | _, _ => 0 end.
Definition affine (R : list (list Qc)) (t r : list Qc) : list Qc := plus (map (fun row => inner row r) R) t.
(** Coordinates added. *)
Definition zsum (c t : list Z) : list Z := map (fun q => (fst q + snd q)%Z) (combine c t).
