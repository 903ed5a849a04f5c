(** Properties C66, C69, C70, C71 (transformations of lattices) and C26 with a lattice. *)
From Coq Require Import String List ZArith Bool Arith QArith Qcanon Permutation Lia.
From Verif Require Import GC Exn M_OpString M_Tools M_Basis M_Cluster M_OpAlg M_Transform M_Lattice M_SpaceGroup.
From Verif Require Import S_Alg S_Den S_Fock S_Basis S_Built S_Cluster S_Transform S_Lattice.
From Verif Require Import L_Lattice4 L_Show L_LatticeEx L_SpaceEx L_SpaceExamples.
Import ListNotations.
Local Open Scope Qc_scope.
Local Open Scope alg_scope.

(* --------------------------------------------------------------- C66 *)

(** C66: if space_group_symmetry(lattice, R, t) returns, the i-th entry of its permutation is the
    label of an orbital of the same name at the place R r + t of the i-th orbital, up to at most
    one period in each periodic direction; it is a permutation if R r + t tells the orbitals apart. *)
Theorem C66_moved : forall show d uc ns per tol L R t p,
  cell_shape d uc -> length ns = d -> length per = d -> lattice_new show uc ns (Some per) tol = Ok L ->
  space_group_labels show L R t = Ok p ->
  moved show tol d (uc_vectors uc) ns per (l_orbitals L) (affine R t) (fun n => n) p /\
  (stay_apart show tol d (uc_vectors uc) ns per (l_orbitals L) (affine R t) (fun n => n) -> permutes p (perm_fun p)).
Proof. exact space_group_sound. Qed.
Print Assumptions C66_moved.
(** The Transformation then renames the labels of every string. *)
Theorem C66_rule : forall show d uc ns per tol L R t T,
  cell_shape d uc -> length ns = d -> length per = d -> lattice_new show uc ns (Some per) tol = Ok L ->
  stay_apart show tol d (uc_vectors uc) ns per (l_orbitals L) (affine R t) (fun n => n) ->
  space_group_symmetry show L R t = Ok T ->
  exists p, moved show tol d (uc_vectors uc) ns per (l_orbitals L) (affine R t) (fun n => n) p /\ permutes p (perm_fun p) /\
    forall ty s, ty <> Fermion -> string_ok ty s -> in_range (l_len L) s ->
      exists k u, one_term (apply T (TString s)) k u /\ (k = g1 \/ k = gm1) /\ string_ok ty u /\ canonical u /\
        forall (A : StarAlg) (g : op -> Z -> A), rep ty g -> S_Transform.image false (renamed (perm_fun p) g) s == k · den g u.
Proof. exact space_group_rule. Qed.
Print Assumptions C66_rule.
(** Cubic lattices and maps that send lattice points to integer points: the permutation is that
    of the cells (wrapped around), and ValueError if a point leaves the lattice. *)
Theorem C66_cubic : forall show d ns per names L, length ns = d -> length per = d ->
  cubic show d ns (Some per) (Some names) = Ok L -> NoDup names ->
  forall B R t (g : list Z -> list Z), shows_integers show d B ->
  (forall c, in_cells ns c -> affine R t (map qz c) = map qz (g c) /\ Forall2 (fun n x => (Z.abs x + n <= B)%Z) ns (g c)) ->
  ((forall c, in_cells ns c -> wrapped ns per (g c)) ->
     exists p, space_group_labels show L R t = Ok p /\ length p = l_len L /\
       (forall c k, in_cells ns c -> (k < length names)%nat ->
          nth_error p (cubic_label ns (length names) c k) = Some (Z.of_nat (cubic_label ns (length names) (home ns (g c)) k))) /\
       ((forall c c', in_cells ns c -> in_cells ns c' -> home ns (g c) = home ns (g c') -> c = c') -> permutes p (perm_fun p))) /\
  (forall c, in_cells ns c -> ~ wrapped ns per (g c) -> names <> [] -> space_group_labels show L R t = Err ValueError).
Proof. exact space_group_cubic. Qed.
Print Assumptions C66_cubic.
(** Translations of a fully periodic cubic lattice by up to one period. *)
Theorem C66_translation : forall show d ns names L t, length ns = d ->
  cubic show d ns (Some (repeat true d)) (Some names) = Ok L -> NoDup names ->
  forall B, shows_integers show d B -> Forall (fun n => (3 * n <= B)%Z) ns -> Forall2 (fun n x => (Z.abs x <= n)%Z) ns t ->
  exists p, space_group_labels show L (map (unit_vec d) (seq 0 d)) (map qz t) = Ok p /\ permutes p (perm_fun p) /\ length p = l_len L /\
    forall c k, in_cells ns c -> (k < length names)%nat ->
      nth_error p (cubic_label ns (length names) c k) = Some (Z.of_nat (cubic_label ns (length names) (home ns (zsum c t)) k)).
Proof. exact translation_sum. Qed.
Print Assumptions C66_translation.
(** A matrix that is not invertible is accepted, and the result is no permutation. *)
Theorem C66_singular_refuted : forall show, shows_integers show 1 6 -> exists L p,
  chain show 2 true None = Ok L /\ space_group_labels show L [[0]] [0] = Ok p /\ p = [0; 0]%Z /\ forall f, ~ permutes p f.
Proof. exact singular_proof. Qed.
Print Assumptions C66_singular_refuted.
(** Quarter turn of the 2x2 square about the middle of the cell, and a translation. *)
Example C66_example :
  rbind (ex_square [false; false]) (fun L => space_group_labels show_exact L [[0; - (1)]; [1; 0]] [1; 0]) = Ok [4; 5; 0; 1; 6; 7; 2; 3]%Z /\
  rbind (ex_square [true; true]) (fun L => space_group_labels show_exact L (map (unit_vec 2) (seq 0 2)) (map qz [1; 0]%Z)) = Ok [4; 5; 6; 7; 0; 1; 2; 3]%Z /\
  rbind (ex_square [false; false]) (fun L => space_group_labels show_exact L (map (unit_vec 2) (seq 0 2)) (map qz [1; 0]%Z)) = Err ValueError /\
  permutes [4; 5; 0; 1; 6; 7; 2; 3]%Z (perm_fun [4; 5; 0; 1; 6; 7; 2; 3]%Z) /\
  (exists L, ex_square [true; true] = Ok L /\
     stay_apart show_exact tol8 2 (units 2) [2; 2]%Z [true; true] (l_orbitals L) (affine (units 2) (map qz [1; 0]%Z)) (fun n => n)).
Proof. exact example66. Qed.

(* --------------------------------------------------------------- C69 *)

(** C69: spin_flip_symmetry exchanges the orbitals whose names differ by the exchange of up and
    dn, at the same place; the permutation is its own inverse. *)
Theorem C69_spin_flip : forall show d uc ns per tol L B up dn,
  cell_shape d uc -> length ns = d -> length per = d -> lattice_new show uc ns (Some per) tol = Ok L ->
  names_differ (atoms uc) -> (0 <= tol)%Qc -> told_apart show tol d (uc_vectors uc) (atoms uc) B -> Forall (fun n => (n <= B)%Z) ns ->
  flip_closed (atoms uc) (fun n => swap n up dn) ->
  exists p, spin_flip_labels show L up dn = Ok p /\ permutes p (perm_fun p) /\ length p = l_len L /\
    (forall i r name c, nth_error (l_orbitals L) i = Some (r, name, c) ->
       exists i', perm_fun p (Z.of_nat i) = Z.of_nat i' /\ nth_error (l_orbitals L) i' = Some (r, swap name up dn, c)) /\
    (forall l, (0 <= l < Z.of_nat (l_len L))%Z -> perm_fun p (perm_fun p l) = l).
Proof. exact spin_flip_proof. Qed.
Print Assumptions C69_spin_flip.
(** An orbital whose partner is missing everywhere makes it raise ValueError. *)
Theorem C69_no_partner : forall show d uc ns per tol L up dn i r name c,
  cell_shape d uc -> length ns = d -> length per = d -> lattice_new show uc ns (Some per) tol = Ok L ->
  nth_error (l_orbitals L) i = Some (r, name, c) ->
  (forall a os, In (a, os) (atoms uc) -> ~ In (swap name up dn) os) ->
  spin_flip_labels show L up dn = Err ValueError /\ spin_flip_symmetry show L up dn = Err ValueError.
Proof. exact no_partner_proof. Qed.
Print Assumptions C69_no_partner.
Example C69_example :
  rbind (ex_square [true; false]) (fun L => spin_flip_labels show_exact L "Up" "Dn") = Ok [1; 0; 3; 2; 5; 4; 7; 6]%Z /\
  rbind (square show_exact 2 2 None (Some ["Up"%string])) (fun L => spin_flip_labels show_exact L "Up" "Dn") = Err ValueError /\
  flip_closed (atoms (cubic_cell 2 ex_two)) (fun n => swap n "Up" "Dn") /\
  swap "pxUp" "Up" "Dn" = "pxDn"%string.
Proof. exact example69. Qed.

(* --------------------------------------------------------------- C70 *)

(** C70: spin_parity_symmetry changes the sign of exactly the operators of the orbitals whose
    name contains dn. *)
Theorem C70_spin_parity : forall show d uc ns per tol L B up dn,
  cell_shape d uc -> length ns = d -> length per = d -> lattice_new show uc ns (Some per) tol = Ok L ->
  names_differ (atoms uc) -> (0 <= tol)%Qc -> told_apart show tol d (uc_vectors uc) (atoms uc) B -> Forall (fun n => (n <= B)%Z) ns ->
  exists D, NoDup D /\ (forall x, In x D <-> exists i r u v c, x = Z.of_nat i /\ nth_error (l_orbitals L) i = Some (r, (u ++ dn ++ v)%string, c)) /\
    forall s, string_ok Majorana s ->
      exists k, one_term (apply (spin_parity_symmetry show L up dn) (TString s)) k s /\
        k = gsgn (Nat.odd (length (filter (fun p => is_ab (fst p) && (if in_dec Z.eq_dec (snd p) D then true else false)) (combine (os_ops s) (os_labels s))))) /\
        forall (A : StarAlg) (g : op -> Z -> A), rep Majorana g ->
          let P := aprod (map (g OD) D) in P * P == aone /\ P * den g s * P == k · den g s.
Proof. exact spin_parity_proof. Qed.
Print Assumptions C70_spin_parity.
Example C70_example : exists L, ex_square [true; false] = Ok L /\
  (forall B, told_apart show_exact tol8 2 (uc_vectors (cubic_cell 2 ex_two)) (atoms (cubic_cell 2 ex_two)) B) /\
  nth_error (l_orbitals L) 3 = Some (map qz [0; 1]%Z, ("" ++ "Dn" ++ "")%string, [0; 1]%Z) /\
  rbind (apply (spin_parity_symmetry show_exact L "Up" "Dn") (TString (mkOS [OA; OB; OD] [2; 3; 5]%Z Majorana p_j))) (fun o => Ok (map fst (op_terms o))) = Ok [gm1].
Proof. exact example70. Qed.

(* --------------------------------------------------------------- C71 *)

(** C71: time_reversal((lattice, up, dn)) exchanges the orbitals named up and dn, at the same
    place, is antilinear and acts on the a_l, b_l as spinful time reversal. *)
Theorem C71_time_reversal : forall show d uc ns per tol L B up dn,
  cell_shape d uc -> length ns = d -> length per = d -> lattice_new show uc ns (Some per) tol = Ok L ->
  names_differ (atoms uc) -> (0 <= tol)%Qc -> told_apart show tol d (uc_vectors uc) (atoms uc) B -> Forall (fun n => (n <= B)%Z) ns ->
  flip_closed (atoms uc) (fun n => swap n up dn) ->
  exists T f D, time_reversal_of show (SpinNames L up dn) = Ok T /\
    (forall i r name c, nth_error (l_orbitals L) i = Some (r, name, c) ->
       exists i', f (Z.of_nat i) = Z.of_nat i' /\ nth_error (l_orbitals L) i' = Some (r, swap name up dn, c)) /\
    (forall x, In x D <-> exists i r u v c, x = Z.of_nat i /\ nth_error (l_orbitals L) i = Some (r, (u ++ dn ++ v)%string, c)) /\
    forall s, string_ok Majorana s -> std s -> in_range (l_len L) s ->
      exists k u, one_term (apply T (TString s)) k u /\ (k = g1 \/ k = gm1) /\ string_ok Majorana u /\ canonical u /\
        forall (A : StarAlg) (g : op -> Z -> A), rep Majorana g ->
          S_Transform.image true (reversed_spin f (fun l => In l D) (fun l => in_dec Z.eq_dec l D) g) s == k · den g u.
Proof. exact spinful_lattice. Qed.
Print Assumptions C71_time_reversal.
(** The other arguments. *)
Theorem C71_argument : forall show L up dn,
  time_reversal_of show SpinNone = Ok time_reversal_rule /\
  time_reversal_of show (SpinLattice L) = time_reversal_of show (SpinNames L "Up" "Dn") /\
  time_reversal_of show SpinOther = Err ValueError /\
  (spin_flip_labels show L up dn = Err ValueError -> time_reversal_of show (SpinNames L up dn) = Err ValueError).
Proof. exact time_reversal_argument. Qed.
Print Assumptions C71_argument.
(** a_0 (up) goes to a_1, a_1 (down) to - a_0, b_1 to b_0. *)
Example C71_example : exists L T, ex_square [true; false] = Ok L /\ time_reversal_of show_exact (SpinLattice L) = Ok T /\
  rbind (apply T (TString (mkOS [OA] [0]%Z Majorana p_one))) (fun o => Ok (op_terms o)) = Ok [(g1, mkOS [OA] [1]%Z Majorana p_one)] /\
  rbind (apply T (TString (mkOS [OA] [1]%Z Majorana p_one))) (fun o => Ok (op_terms o)) = Ok [(gm1, mkOS [OA] [0]%Z Majorana p_one)] /\
  rbind (apply T (TString (mkOS [OB] [1]%Z Majorana p_one))) (fun o => Ok (op_terms o)) = Ok [(g1, mkOS [OB] [0]%Z Majorana p_one)].
Proof. exact example71. Qed.

(* --------------------------------------------------------------- C26 *)

(** C26 with a Lattice: the strings of distance_basis(lattice, k, R, ty) are the k-local strings
    whose orbitals are pairwise within R (+ tol) of each other, over images one period away. *)
Theorem C26_lattice : forall pick order ordering show d uc ns per tol L r k ty allowed id,
  (forall R P X, P ++ X <> [] -> In (pick R P X) (P ++ X)) -> (forall R P X, Permutation (order R P X) P) ->
  cell_shape d uc -> length ns = d -> length per = d -> lattice_new show uc ns (Some per) tol = Ok L ->
  Permutation ordering (seq 0 (l_len L)) -> (forall v, In v allowed -> (v < l_len L)%nat) -> k_valid k -> (0 <= r)%Qc ->
  exists b, distance_basis pick order ordering (within_distance L r) (l_len L) k ty allowed id = Ok b /\ built b /\ NoDup (b_strings b) /\
    forall s, In s (b_strings b) <-> local_string ty k s /\
      (forall x, In x (os_labels s) -> exists i, In i allowed /\ x = Z.of_nat i) /\
      (forall i j p q np nq cp cq, In (Z.of_nat i) (os_labels s) -> In (Z.of_nat j) (os_labels s) -> (i < j)%nat ->
         nth_error (l_orbitals L) i = Some (p, np, cp) -> nth_error (l_orbitals L) j = Some (q, nq, cq) ->
         exists m, length m = d /\ near_image per m /\ (sq_dist (plus p (shift d (uc_vectors uc) ns m)) q <= r * r)%Qc).
Proof. exact distance_lattice_proof. Qed.
Print Assumptions C26_lattice.
Example C26_lattice_example : exists L b, chain show_exact 4 true None = Ok L /\
  distance_basis (fun R P X => hd 0%nat (P ++ X)) (fun R P X => P) (seq 0 4) (within_distance L (Q2Qc (11 # 10))) 4 (KInt 2) Pauli (seq 0 4) false = Ok b /\
  length (b_strings b) = 48%nat.
Proof. exact example26. Qed.
