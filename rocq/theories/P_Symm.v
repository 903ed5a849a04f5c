(** C53: symmetrize_basis. *)
From Coq Require Import List Arith Lia ZArith Bool Permutation QArith Qcanon String.
From Verif Require Import GC Exn S_Alg S_Den S_Basis S_Built S_Tools S_Transform S_Symm M_OpString M_Tools M_Algebra M_Basis M_Transform M_Symm
  L_Tools L_Symm L_Symm2 L_Symm3 L_SymmP.
Import ListNotations.
Local Open Scope nat_scope.

(** Commuting, distinct generators other than the identity (in particular one generator, or the
    translations of a lattice): with enough steps the call returns, every returned Operator is
    unchanged by every generator, it is normalised (as exactly as the square root is), two of them have no string in common, and every
    Operator on the basis that is unchanged by the generators is a combination of them. *)
Theorem C53_commuting_partial : forall ty n b gens root tol, ty <> Fermion ->
  gens <> [] -> (forall g, In g gens -> is_perm n g) -> NoDup (seq 0 n :: gens) -> commuting gens ->
  (forall s, In s (b_strings b) -> string_ok ty s /\ canonical s /\ in_range n s) ->
  exists N ops, (forall fuel, N <= fuel -> symmetrize_basis fuel root tol b gens = Some (Ok ops)) /\
    (forall o, In o ops -> proper o /\ o_type o = ty) /\
    (forall o g, In o ops -> In g gens -> exists r, apply (perm_of g) (TOperator o) = Ok r /\ same_coeffs r o) /\
    (forall o, In o ops -> exists x, (0 < x)%Qc /\ (root x <> 0 -> op_norm2 o * (root x * root x) = x)%Qc) /\
    ForallOrdPairs no_common ops /\
    ((tol * tol < 1)%Qc -> (forall x, (0 < x)%Qc -> root x <> 0%Qc) -> forall o, proper o -> o_type o = ty ->
       (forall t, In t (b_strings (o_basis o)) -> In t (b_strings b)) ->
       (forall g, In g gens -> exists r, apply (perm_of g) (TOperator o) = Ok r /\ same_coeffs r o) ->
       exists ws, incl (map snd ws) ops /\ forall u c, has_coeff (op_terms o) u c <-> weighted u ws c).
Proof. exact commuting_generators. Qed.
Print Assumptions C53_commuting_partial.

(** Any generators, provided that the list of permutations that the call builds has no repetition and holds the
    whole group that they generate. *)
Theorem C53_whole_group_partial : forall ty n b gens root tol fuel G, ty <> Fermion ->
  gens <> [] -> (forall g, In g gens -> is_perm n g) ->
  symmetry_group fuel gens = Some (Ok G) -> NoDup G -> (forall g, generated n gens g -> In g G) ->
  (forall s, In s (b_strings b) -> string_ok ty s /\ canonical s /\ in_range n s) ->
  exists ops, symmetrize_basis fuel root tol b gens = Some (Ok ops) /\
    (forall o, In o ops -> proper o /\ o_type o = ty) /\
    (forall o g, In o ops -> In g gens -> exists r, apply (perm_of g) (TOperator o) = Ok r /\ same_coeffs r o) /\
    (forall o, In o ops -> exists x, (0 < x)%Qc /\ (root x <> 0 -> op_norm2 o * (root x * root x) = x)%Qc) /\
    ForallOrdPairs no_common ops /\
    ((tol * tol < 1)%Qc -> (forall x, (0 < x)%Qc -> root x <> 0%Qc) -> forall o, proper o -> o_type o = ty ->
       (forall t, In t (b_strings (o_basis o)) -> In t (b_strings b)) ->
       (forall g, In g gens -> exists r, apply (perm_of g) (TOperator o) = Ok r /\ same_coeffs r o) ->
       exists ws, incl (map snd ws) ops /\ forall u c, has_coeff (op_terms o) u c <-> weighted u ws c).
Proof. exact whole_group. Qed.
Print Assumptions C53_whole_group_partial.

(** The loop that builds the list of permutations always ends, and the list holds only permutations that
    the generators generate, the identity and the generators. *)
Theorem C53_group_list : forall n gens, gens <> [] -> (forall g, In g gens -> is_perm n g) ->
  exists N G, (forall fuel, N <= fuel -> symmetry_group fuel gens = Some (Ok G)) /\
    (forall g, In g G -> generated n gens g) /\ In (seq 0 n) G /\ incl gens G.
Proof. exact group_list. Qed.
Print Assumptions C53_group_list.

(** No generators: IndexError. *)
Theorem C53_no_generators : forall fuel root tol b, symmetrize_basis fuel root tol b [] = Some (Err IndexError).
Proof. exact no_generators. Qed.
Print Assumptions C53_no_generators.

(** The property fails in general: two reflections that do not commute (they generate the eight
    symmetries of a square, of which the call finds six). *)
Theorem C53_reflections_refuted : exists n b gens g, (forall g, In g gens -> is_perm n g) /\ NoDup (seq 0 n :: gens) /\ In g gens /\
  (forall s, In s (b_strings b) -> string_ok Majorana s /\ canonical s /\ in_range n s) /\
  forall root, (forall x, (0 < x)%Qc -> root x <> 0%Qc) -> exists ops o,
    (forall fuel, 100 <= fuel -> symmetrize_basis fuel root tol12 b gens = Some (Ok ops)) /\ In o ops /\
    ~ exists r, apply (perm_of g) (TOperator o) = Ok r /\ same_coeffs r o.
Proof. exact reflections_refuted. Qed.
Print Assumptions C53_reflections_refuted.

(** It also fails when a generator is given twice, or when the identity is one of the generators. *)
Theorem C53_repeated_refuted : exists n b gens g, (forall g, In g gens -> is_perm n g) /\ commuting gens /\ In g gens /\
  (forall s, In s (b_strings b) -> string_ok Majorana s /\ canonical s /\ in_range n s) /\
  forall root, (forall x, (0 < x)%Qc -> root x <> 0%Qc) -> exists ops o,
    (forall fuel, 100 <= fuel -> symmetrize_basis fuel root tol12 b gens = Some (Ok ops)) /\ In o ops /\
    ~ exists r, apply (perm_of g) (TOperator o) = Ok r /\ same_coeffs r o.
Proof. exact repeated_refuted. Qed.
Print Assumptions C53_repeated_refuted.
Theorem C53_identity_refuted : exists n b g, is_perm n g /\ g <> seq 0 n /\
  (forall s, In s (b_strings b) -> string_ok Majorana s /\ canonical s /\ in_range n s) /\
  forall root, (forall x, (0 < x)%Qc -> root x <> 0%Qc) -> exists ops o,
    (forall fuel, 100 <= fuel -> symmetrize_basis fuel root tol12 b [seq 0 n; g] = Some (Ok ops)) /\ In o ops /\
    ~ exists r, apply (perm_of g) (TOperator o) = Ok r /\ same_coeffs r o.
Proof. exact identity_refuted. Qed.
Print Assumptions C53_identity_refuted.

(** The hypotheses are met: translation by one site of a ring of three orbitals, strings a_0, a_1, a_2, i b_0 b_1, i b_1 b_2. *)
Example C53_ex_basis : exists b, basis_new [mkOS [OA] [0%Z] Majorana p_one; mkOS [OA] [1%Z] Majorana p_one; mkOS [OA] [2%Z] Majorana p_one;
    mkOS [OB; OB] [0%Z; 1%Z] Majorana p_j; mkOS [OB; OB] [1%Z; 2%Z] Majorana p_j] = Ok b /\
  (forall s, In s (b_strings b) -> string_ok Majorana s /\ canonical s /\ in_range 3 s) /\
  NoDup (seq 0 3 :: [[1; 2; 0]]) /\ commuting [[1; 2; 0]] /\ (forall g, In g [[1; 2; 0]] -> is_perm 3 g) /\
  exists o1 o2, symmetrize_basis 20 (fun x => x) tol12 b [[1; 2; 0]] = Some (Ok [o1; o2]) /\ List.length (o_coeffs o1) = 3 /\ List.length (o_coeffs o2) = 3.
Proof. exact ex_basis. Qed.
(** The rotation of a square followed by a reflection: the list is the whole group of eight. *)
Example C53_ex_square : exists G, symmetry_group 100 [[1; 2; 3; 0]; [0; 3; 2; 1]] = Some (Ok G) /\ NoDup G /\ List.length G = 8 /\
  (forall g, generated 4 [[1; 2; 3; 0]; [0; 3; 2; 1]] g -> In g G) /\ ~ commuting [[1; 2; 3; 0]; [0; 3; 2; 1]].
Proof. exact ex_square. Qed.
