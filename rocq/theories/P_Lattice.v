(** Properties C63, C64, C65: lattices. *)
From Coq Require Import String List ZArith Bool Arith QArith Qcanon Lia.
From Verif Require Import GC Exn M_Basis M_Lattice S_Lattice L_Lattice1 L_Lattice2 L_Lattice3 L_Lattice4 L_Cubic L_Show L_LatticeEx.
Import ListNotations.
Local Open Scope Qc_scope.

(* --------------------------------------------------------------- C63 *)

(** C63: the orbitals of a Lattice are counted and ordered as documented: cell by cell, atom
    by atom, name by name; the position is that of the atom in the cell, with coordinates of
    size at most [tol] set to zero.  The text [show] of positions is arbitrary. *)
Theorem C63_orbitals : forall show d uc ns per tol, cell_shape d uc -> length ns = d -> length per = d ->
  exists L, lattice_new show uc ns (Some per) tol = Ok L /\ l_len L = (num_cells ns * per_cell (atoms uc))%nat /\
    (forall c j k a os name, in_cells ns c -> nth_error (atoms uc) j = Some (a, os) -> nth_error os k = Some name ->
       nth_error (l_orbitals L) (label_of ns (atoms uc) c j k) = Some (rounded tol (crystal d (uc_vectors uc) c a), name, c)) /\
    (forall i, (i < l_len L)%nat -> exists c j k a os name, in_cells ns c /\ nth_error (atoms uc) j = Some (a, os) /\
       nth_error os k = Some name /\ i = label_of ns (atoms uc) c j k).
Proof. exact orbitals_proof. Qed.
Print Assumptions C63_orbitals.
(** Boundaries are open unless said otherwise. *)
Theorem C63_default_open : forall show uc ns tol, lattice_new show uc ns None tol = lattice_new show uc ns (Some (repeat false (length ns))) tol.
Proof. reflexivity. Qed.
Print Assumptions C63_default_open.
(** The index of the position and name of the i-th orbital is i, if the texts of the positions
    of the lattice differ and no atom has two orbitals of the same name. *)
Theorem C63_index : forall show d uc ns per tol L B i p name c,
  cell_shape d uc -> length ns = d -> length per = d -> lattice_new show uc ns (Some per) tol = Ok L ->
  names_differ (atoms uc) -> 0 <= tol -> told_apart show tol d (uc_vectors uc) (atoms uc) B -> Forall (fun n => (n <= B)%Z) ns ->
  nth_error (l_orbitals L) i = Some (p, name, c) -> l_index show L p name = Z.of_nat i.
Proof. exact (fun show d uc ns per tol L B i p name c S N P E D => index_own show d uc ns per tol L S N P E D B i p name c). Qed.
Print Assumptions C63_index.
(** Whatever [show] is: the index is -1 exactly if no copy of the position, moved by at most
    one period in the periodic directions, is that of an orbital of this name; otherwise it is
    the label of such an orbital. *)
Theorem C63_index_meaning : forall show d uc ns per tol L,
  cell_shape d uc -> length ns = d -> length per = d -> lattice_new show uc ns (Some per) tol = Ok L ->
  forall p name,
  (l_index show L p name = (-1)%Z /\
     forall m o, length m = d -> near_image per m -> In o (l_orbitals L) -> ~ matches show tol (plus p (shift d (uc_vectors uc) ns m)) name o) \/
  (exists i o m, l_index show L p name = Z.of_nat i /\ nth_error (l_orbitals L) i = Some o /\
     length m = d /\ near_image per m /\ matches show tol (plus p (shift d (uc_vectors uc) ns m)) name o).
Proof. exact index_meaning. Qed.
Print Assumptions C63_index_meaning.
(** Cubic lattices of any dimension and size: only integer vectors need different texts. *)
Theorem C63_cubic : forall show d ns per names L B, length ns = d -> length per = d -> NoDup names ->
  cubic show d ns (Some per) (Some names) = Ok L -> shows_integers show d B -> Forall (fun n => (n <= B)%Z) ns ->
  l_len L = (num_cells ns * length names)%nat /\
  forall c k name, in_cells ns c -> nth_error names k = Some name ->
    nth_error (l_orbitals L) (cubic_label ns (length names) c k) = Some (map qz c, name, c) /\
    l_index show L (map qz c) name = Z.of_nat (cubic_label ns (length names) c k).
Proof. exact cubic_lattice_proof. Qed.
Print Assumptions C63_cubic.
(** Two atoms at the same place with an orbital of the same name share one index. *)
Theorem C63_duplicate_refuted : forall show, exists uc L p name c,
  lattice_new show uc [2%Z] (Some [false]) tol8 = Ok L /\
  nth_error (l_orbitals L) 0 = Some (p, name, c) /\ nth_error (l_orbitals L) 1 = Some (p, name, c) /\ l_index show L p name <> 0%Z.
Proof. exact duplicate_atoms. Qed.
Print Assumptions C63_duplicate_refuted.
Example C63_example :
  cell_shape 2 (cubic_cell 2 ["Up"; "Dn"]%string) /\ names_differ (atoms (cubic_cell 2 ["Up"; "Dn"]%string)) /\
  (forall B, told_apart show_exact tol8 2 (uc_vectors (cubic_cell 2 ["Up"; "Dn"]%string)) (atoms (cubic_cell 2 ["Up"; "Dn"]%string)) B) /\
  (forall d B, shows_integers show_exact d B) /\
  exists L, cubic show_exact 2 [2; 3]%Z (Some [true; false]) (Some ["Up"; "Dn"]%string) = Ok L /\ l_len L = 12%nat /\
    nth_error (l_orbitals L) 9 = Some (map qz [1; 1]%Z, "Dn"%string, [1; 1]%Z) /\
    l_index show_exact L (map qz [1; 1]%Z) "Dn" = 9%Z /\ l_index show_exact L (map qz [1; 1]%Z) "x" = (-1)%Z.
Proof. exact example63. Qed.
(** A Kagome lattice (three atoms per cell), for any value of sqrt(3)/2. *)
Example C63_kagome : forall show h n1 n2, exists L, kagome show h n1 n2 None None = Ok L /\ l_len L = (Z.to_nat n1 * Z.to_nat n2 * 3)%nat.
Proof. exact kagome_count. Qed.

(* --------------------------------------------------------------- C64 *)

(** C64: the index of any crystal point z_1 v_1 + ... + a: wrapped into the lattice if it is at
    most one period away in the periodic directions, else -1. *)
Theorem C64_index_crystal : forall show d uc ns per tol L B name z j k a os,
  cell_shape d uc -> length ns = d -> length per = d -> lattice_new show uc ns (Some per) tol = Ok L -> names_differ (atoms uc) ->
  told_apart show tol d (uc_vectors uc) (atoms uc) B -> Forall2 (fun n x => (Z.abs x + n <= B)%Z) ns z ->
  nth_error (atoms uc) j = Some (a, os) -> nth_error os k = Some name ->
  (wrapped ns per z -> l_index show L (crystal d (uc_vectors uc) z a) name = Z.of_nat (label_of ns (atoms uc) (home ns z) j k)) /\
  (~ wrapped ns per z -> l_index show L (crystal d (uc_vectors uc) z a) name = (-1)%Z).
Proof. exact (fun show d uc ns per tol L B name z j k a os S N P E D => index_crystal show d uc ns per tol L S N P E D B name z j k a os). Qed.
Print Assumptions C64_index_crystal.
(** The i-th orbital moved by at most one full period in each periodic direction has index i. *)
Theorem C64_shift : forall show d uc ns per tol L B i p name c m,
  cell_shape d uc -> length ns = d -> length per = d -> lattice_new show uc ns (Some per) tol = Ok L -> names_differ (atoms uc) ->
  told_apart show tol d (uc_vectors uc) (atoms uc) B -> Forall (fun n => (3 * n <= B)%Z) ns ->
  (forall c a os, in_cells ns c -> In (a, os) (atoms uc) -> no_tiny tol (crystal d (uc_vectors uc) c a)) ->
  nth_error (l_orbitals L) i = Some (p, name, c) -> near_image per m ->
  l_index show L (plus p (shift d (uc_vectors uc) ns m)) name = Z.of_nat i.
Proof. exact shift_proof. Qed.
Print Assumptions C64_shift.
(** Cubic lattices: the same for every integer vector. *)
Theorem C64_cubic : forall show d ns per names L, length ns = d -> length per = d ->
  cubic show d ns (Some per) (Some names) = Ok L -> NoDup names ->
  forall B z k name, shows_integers show d B -> Forall2 (fun n x => (Z.abs x + n <= B)%Z) ns z -> nth_error names k = Some name ->
  (wrapped ns per z -> l_index show L (map qz z) name = Z.of_nat (cubic_label ns (length names) (home ns z) k)) /\
  (~ wrapped ns per z -> l_index show L (map qz z) name = (-1)%Z).
Proof. exact cubic_index. Qed.
Print Assumptions C64_cubic.
(** Two periods away nothing is found: on a periodic chain of any length, with the first
    orbital and any text of positions that tells integers apart. *)
Theorem C64_two_periods_refuted : forall show n L, (1 <= n)%Z -> shows_integers show 1 (3 * n) ->
  chain show n true None = Ok L ->
  l_index show L (map qz [0%Z]) "" = 0%Z /\ l_index show L (map qz [n]) "" = 0%Z /\ l_index show L (map qz [(2 * n)%Z]) "" = (-1)%Z.
Proof. exact two_periods. Qed.
Print Assumptions C64_two_periods_refuted.
Example C64_example : exists L, square show_exact 2 3 (Some [true; false]) (Some ["Up"; "Dn"]%string) = Ok L /\
  wrapped [2; 3]%Z [true; false] [-1; 2]%Z /\ home [2; 3]%Z [-1; 2]%Z = [1; 2]%Z /\
  l_index show_exact L (map qz [-1; 2]%Z) "Dn" = 11%Z /\ l_index show_exact L (map qz [-1; 3]%Z) "Dn" = (-1)%Z /\
  near_image [true; false] [1; 0]%Z /\ (forall c a os, in_cells [2; 3]%Z c -> In (a, os) (atoms (cubic_cell 2 ["Up"; "Dn"]%string)) -> no_tiny tol8 (crystal 2 (units 2) c a)).
Proof. exact example64. Qed.

(* --------------------------------------------------------------- C65 *)

(** C65: the (squared) distance of two positions is the least one over the images by at most
    one period in each periodic direction; it is symmetric, not negative and zero on equal
    positions, and zero only for positions that differ by such periods. *)
Theorem C65_metric : forall show d uc ns per tol L p q,
  cell_shape d uc -> length ns = d -> length per = d -> lattice_new show uc ns (Some per) tol = Ok L -> length p = d -> length q = d ->
  exists r, l_dist2 L (PosVec p) (PosVec q) = Ok r /\ nearest2 d (uc_vectors uc) ns per p q r /\ 0 <= r /\
    l_dist2 L (PosVec q) (PosVec p) = Ok r /\ l_dist2 L (PosVec p) (PosVec p) = Ok 0 /\
    (r = 0 <-> exists m, length m = d /\ near_image per m /\ q = plus p (shift d (uc_vectors uc) ns m)).
Proof. exact metric_proof. Qed.
Print Assumptions C65_metric.
(** A label stands for the position of its orbital (a negative one counts from the end). *)
Theorem C65_labels : forall L i a' p name c, nth_error (l_orbitals L) i = Some (p, name, c) ->
  l_dist2 L (PosInt (Z.of_nat i)) a' = l_dist2 L (PosVec p) a' /\ l_dist2 L a' (PosInt (Z.of_nat i)) = l_dist2 L a' (PosVec p) /\
  l_dist2 L (PosInt (Z.of_nat i - Z.of_nat (l_len L))) a' = l_dist2 L (PosVec p) a'.
Proof. exact labels_proof. Qed.
Print Assumptions C65_labels.
(** Cubic lattices: the distance on the torus.  It is minimal over all integer numbers of
    periods. *)
Theorem C65_cubic : forall show d ns per names L, length ns = d -> length per = d -> cubic show d ns (Some per) (Some names) = Ok L ->
  forall c c' k k', in_cells ns c -> in_cells ns c' -> (k < length names)%nat -> (k' < length names)%nat ->
  l_dist2 L (PosInt (Z.of_nat (cubic_label ns (length names) c k))) (PosInt (Z.of_nat (cubic_label ns (length names) c' k'))) = Ok (qz (torus_dist2 ns per c c')) /\
  forall m, image per m -> qz (torus_dist2 ns per c c') <= sq_dist (plus (map qz c) (map qz (periods ns m))) (map qz c').
Proof. exact cubic_distance_proof. Qed.
Print Assumptions C65_cubic.
(** Chains of N sites. *)
Theorem C65_chain : forall show n periodic L i j, chain show n periodic None = Ok L -> (0 <= i < n)%Z -> (0 <= j < n)%Z ->
  let e := if periodic then Z.min (Z.abs (i - j)) (n - Z.abs (i - j)) else Z.abs (i - j) in
  l_dist2 L (PosInt i) (PosInt j) = Ok (qz e * qz e).
Proof. exact chain_distance_proof. Qed.
Print Assumptions C65_chain.
(** In general the distance is not minimal over all images: skew lattice vectors. *)
Theorem C65_skew_refuted : forall show, exists uc L p q m r,
  cell_shape 2 uc /\ lattice_new show uc [1; 1]%Z (Some [true; true]) tol8 = Ok L /\
  l_dist2 L (PosVec p) (PosVec q) = Ok r /\ image [true; true] m /\ sq_dist (plus p (shift 2 (uc_vectors uc) [1; 1]%Z m)) q < r.
Proof. exact skew_proof. Qed.
Print Assumptions C65_skew_refuted.
Example C65_example : exists L, chain show_exact 7 true None = Ok L /\ l_dist2 L (PosInt 1) (PosInt 6) = Ok (qz 4) /\
  l_dist2 L (PosInt 6) (PosInt 1) = Ok (qz 4) /\ l_dist2 L (PosInt 3) (PosInt 6) = Ok (qz 9).
Proof. exact example65. Qed.
