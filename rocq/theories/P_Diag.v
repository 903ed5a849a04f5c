(** Matrices and state vectors of spins: C54 - C58. *)
From Coq Require Import List Arith Lia ZArith NArith Bool.
From Verif Require Import GC Exn S_Alg S_Den S_Basis S_Built S_Tools M_OpString M_Algebra M_Basis M_OpAlg M_Transform S_Transform M_Diag S_Diag L_Diag1 L_Diag3 L_Diag4 L_Diag5 L_DiagEx.
Import ListNotations.
Local Open Scope nat_scope.

(** C54: the matrix of a Pauli string is the tensor product of Pauli matrices, label l at the spin read
    from bit n-1-l, and it is Hermitian. *)
Theorem C54_string : forall n s, string_ok Pauli s -> labels_in n s -> exists M, to_matrix (MString s) n = Ok M /\ m_orbitals M = n /\
  mat_eq n (entry M) (string_matrix n s) /\ mat_eq n (adjoint (entry M)) (entry M).
Proof. exact matrix_string. Qed.
Print Assumptions C54_string.
(** The matrix of the product is the product of the matrices. *)
Theorem C54_product : forall n s t, string_ok Pauli s -> string_ok Pauli t -> labels_in n s -> labels_in n t ->
  exists k u S T U, product s t = Ok (k, Some u) /\ to_matrix (MString s) n = Ok S /\ to_matrix (MString t) n = Ok T /\ to_matrix (MString u) n = Ok U /\
    mat_eq n (mat_mul n (entry S) (entry T)) (fun r c => gmul k (entry U r c)).
Proof. exact matrix_product. Qed.
Print Assumptions C54_product.
(** The matrix of an Operator is the combination of the matrices of its strings ... *)
Theorem C54_operator : forall n o, on_spins n o -> exists M, to_matrix (MOperator o) n = Ok M /\ m_orbitals M = n /\
  mat_eq n (entry M) (fun r c => gsum (map (fun t => gmul (fst t) (string_matrix n (snd t) r c)) (op_terms o))).
Proof. exact matrix_operator. Qed.
Print Assumptions C54_operator.
(** ... and is linear. *)
Theorem C54_add : forall n o p r, on_spins n o -> on_spins n p -> op_add o p = Ok r ->
  exists O P R, to_matrix (MOperator o) n = Ok O /\ to_matrix (MOperator p) n = Ok P /\ to_matrix (MOperator r) n = Ok R /\
    mat_eq n (entry R) (fun x y => gadd (entry O x y) (entry P x y)).
Proof. exact matrix_add. Qed.
Print Assumptions C54_add.
Theorem C54_scale : forall n z o r, on_spins n o -> op_scale z o = Ok r ->
  exists O R, to_matrix (MOperator o) n = Ok O /\ to_matrix (MOperator r) n = Ok R /\ mat_eq n (entry R) (fun x y => gmul z (entry O x y)).
Proof. exact matrix_scale. Qed.
Print Assumptions C54_scale.
(** Other types and labels that are too large raise. *)
Theorem C54_errors : forall n s, (os_type s <> Pauli -> to_matrix (MString s) n = Err NotImplementedError) /\
  (string_ok Pauli s -> (exists l, In l (os_labels s) /\ (Z.of_nat n <= l)%Z) -> to_matrix (MString s) n = Err ValueError).
Proof. exact matrix_errors. Qed.
Print Assumptions C54_errors.
(** Negative labels: X and Y raise, but Z silently becomes the identity. *)
Theorem C54_negative_labels : forall n l, (l < 0)%Z ->
  (exists M, to_matrix (MString (mkOS [OZ] [l] Pauli p_one)) n = Ok M /\ mat_eq n (entry M) id_mat) /\
  to_matrix (MString (mkOS [OX] [l] Pauli p_one)) n = Err ValueError /\ to_matrix (MString (mkOS [OY] [l] Pauli p_one)) n = Err ValueError.
Proof. exact (fun n l H => conj (negative_z n l H) (conj (negative_x n OX l H (or_introl eq_refl)) (negative_x n OY l H (or_intror eq_refl)))). Qed.
Print Assumptions C54_negative_labels.
Example C54_example : string_ok Pauli dXY /\ labels_in 2 dXY /\ exists M, to_matrix (MString dXY) 2 = Ok M /\
  entry M 3 0 = gi /\ entry M 2 1 = gopp gi /\ entry M 1 2 = gi /\ entry M 0 3 = gopp gi /\ entry M 1 1 = g0.
Proof. exact dXY_matrix. Qed.
Example C54_operator_example : exists o p r, op_new [g2; gi] [dXY; dZ] None = Ok o /\ op_new [g1] [dZ] None = Ok p /\ op_add o p = Ok r /\ on_spins 2 o /\ on_spins 2 p.
Proof. exact d_operators. Qed.

(** C55: to_vector returns the coefficients. *)
Theorem C55_inverse : forall n o b, made o -> (forall s, In s (b_strings (o_basis o)) -> sorted_spins n s) -> (forall s, In s (b_strings b) -> sorted_spins n s) ->
  exists M v, to_matrix (MOperator o) n = Ok M /\ to_vector M b n = Ok v /\ length v = length (b_strings b) /\
    forall i s c, nth_error (b_strings b) i = Some s -> nth_error v i = Some c -> has_coeff (op_terms o) s c.
Proof. exact vector_matrix. Qed.
Print Assumptions C55_inverse.
(** Strings whose labels are not sorted are not told apart from their sorted form. *)
Theorem C55_unsorted_refuted : exists o b M v, made o /\ built b /\ (forall s, In s (b_strings (o_basis o)) -> string_ok Pauli s /\ labels_in 2 s) /\
  (forall s, In s (b_strings b) -> string_ok Pauli s /\ labels_in 2 s) /\ to_matrix (MOperator o) 2 = Ok M /\ to_vector M b 2 = Ok v /\
  exists s c, nth_error (b_strings b) 0 = Some s /\ nth_error v 0 = Some c /\ ~ has_coeff (op_terms o) s c.
Proof. exact unsorted_vector. Qed.
Print Assumptions C55_unsorted_refuted.
Example C55_example : exists o b M, op_new [g2; gi] [dXY; dZ] None = Ok o /\ basis_new [dZ; dX; dXY] = Ok b /\ made o /\
  (forall s, In s (b_strings (o_basis o)) -> sorted_spins 2 s) /\ (forall s, In s (b_strings b) -> sorted_spins 2 s) /\
  to_matrix (MOperator o) 2 = Ok M /\ to_vector M b 2 = Ok [gi; g0; g2].
Proof. exact d_vector. Qed.

(** C56 is false: to_operator fails whenever it is called. *)
Theorem C56_refuted : forall M b n, to_operator M b n = Err TypeError.
Proof. exact (fun _ _ _ => eq_refl). Qed.
Print Assumptions C56_refuted.
Theorem C56_roundtrip_refuted : exists o M b, made o /\ built b /\ op_new [g2; gi] [dXY; dZ] None = Ok o /\ o_basis o = b /\ to_matrix (MOperator o) 2 = Ok M /\
  to_operator M b 2 <> Ok o.
Proof. exact no_roundtrip. Qed.
Print Assumptions C56_roundtrip_refuted.

(** C57: permuting the spins of a vector matches permuting the labels of strings and Operators. *)
Theorem C57_string : forall n p s v, is_perm n p -> string_ok Pauli s -> labels_in n s -> length v = 2 ^ n ->
  exists o M N w, apply (label_permutation (map Z.of_nat p)) (TString s) = Ok o /\ to_matrix (MString s) n = Ok M /\ to_matrix (MOperator o) n = Ok N /\
    apply_transformation (Some p) v n = Ok w /\
    forall u u', length u = 2 ^ n -> (forall c, configuration n c -> amplitude u c = mat_vec n (entry M) (amplitude v) c) ->
      apply_transformation (Some p) u n = Ok u' -> forall c, configuration n c -> amplitude u' c = mat_vec n (entry N) (amplitude w) c.
Proof. exact permuted_string. Qed.
Print Assumptions C57_string.
Theorem C57_operator : forall n p o v, is_perm n p -> good_operator Pauli o -> (forall s, In s (b_strings (o_basis o)) -> labels_in n s) -> length v = 2 ^ n ->
  exists r M N w, apply (label_permutation (map Z.of_nat p)) (TOperator o) = Ok r /\ to_matrix (MOperator o) n = Ok M /\ to_matrix (MOperator r) n = Ok N /\
    apply_transformation (Some p) v n = Ok w /\
    forall u u', length u = 2 ^ n -> (forall c, configuration n c -> amplitude u c = mat_vec n (entry M) (amplitude v) c) ->
      apply_transformation (Some p) u n = Ok u' -> forall c, configuration n c -> amplitude u' c = mat_vec n (entry N) (amplitude w) c.
Proof. exact permuted_operator. Qed.
Print Assumptions C57_operator.
(** The spin at label l moves to label p[l], and takes its amplitude along. *)
Theorem C57_states : forall n p v c, is_perm n p -> length v = 2 ^ n -> configuration n c ->
  exists w d, apply_transformation (Some p) v n = Ok w /\ apply_transformation_conf (Some p) c n = Ok d /\ length w = 2 ^ n /\ configuration n d /\
    amplitude w d = amplitude v c /\ forall l, l < n -> spin n d (nth l p 0) = spin n c l.
Proof. exact permuted_state. Qed.
Print Assumptions C57_states.
Theorem C57_errors : forall n info v c, (forall p, info = Some p -> length p <> n) ->
  apply_transformation info v n = Err ValueError /\ apply_transformation_conf info c n = Err ValueError.
Proof. exact transformation_errors. Qed.
Print Assumptions C57_errors.
Example C57_example : is_perm 3 [1; 2; 0] /\ apply_transformation_conf (Some [1; 2; 0]) 4 3 = Ok 2%N /\
  apply_transformation (Some [1; 2; 0]) [g0; g1; g2; g0; gi; g0; g0; g0] 3 = Ok [g0; g2; gi; g0; g1; g0; g0; g0].
Proof. exact d_permuted. Qed.

(** C58: the reduced density matrix is the partial trace. *)
Theorem C58_partial_trace : forall n A v, NoDup A -> (forall l, In l A -> l < n) -> length v = 2 ^ n ->
  exists rho, reduced_density_matrix (RVector v) (map Z.of_nat A) n = Ok rho /\ reduced_density_matrix (RPair v v) (map Z.of_nat A) n = Ok rho /\
    (forall a b, adjoint rho a b = rho a b) /\
    trace (length A) rho = sum_confs n (fun c => gmul (amplitude v c) (gconj (amplitude v c))) /\
    forall O, trace (length A) (mat_mul (length A) rho O) = expectation n (amplitude v) (embed n A (rest n A) O) (amplitude v).
Proof. exact rho_vector. Qed.
Print Assumptions C58_partial_trace.
Theorem C58_two_vectors : forall n A v w, NoDup A -> (forall l, In l A -> l < n) -> length v = 2 ^ n -> length w = 2 ^ n ->
  exists rho, reduced_density_matrix (RPair v w) (map Z.of_nat A) n = Ok rho /\
    forall O, trace (length A) (mat_mul (length A) rho O) = expectation n (amplitude w) (embed n A (rest n A) O) (amplitude v).
Proof. exact rho_expectation. Qed.
Print Assumptions C58_two_vectors.
(** For a Pauli string on the kept orbitals, in terms of to_matrix. *)
Theorem C58_strings : forall n A v s, NoDup A -> (forall l, In l A -> l < n) -> length v = 2 ^ n -> string_ok Pauli s -> labels_in (length A) s ->
  exists rho S T, reduced_density_matrix (RVector v) (map Z.of_nat A) n = Ok rho /\ to_matrix (MString s) (length A) = Ok S /\ to_matrix (MString (placed A s)) n = Ok T /\
    trace (length A) (mat_mul (length A) rho (entry S)) = expectation n (amplitude v) (entry T) (amplitude v).
Proof. exact rho_string. Qed.
Print Assumptions C58_strings.
Example C58_example : exists rho, reduced_density_matrix (RVector [g1; g0; g0; g0; g0; gi; g0; g2]) (map Z.of_nat [2; 1]) 3 = Ok rho /\
  rho 0%N 0%N = g1 /\ rho 2%N 2%N = g1 /\ rho 3%N 2%N = gopp (gmul g2 gi) /\ rho 0%N 2%N = g0.
Proof. exact d_rho. Qed.
