(** Properties C19-C23: Basis and Operator. *)
From Coq Require Import String List ZArith Bool Arith.
From Verif Require Import GC Exn M_OpString M_Basis M_Heap S_Alg S_Den S_Basis S_Built L_Heap L_PropBasis.
Import ListNotations.
Local Open Scope nat_scope.

Definition exX : OS := mkOS [OX] [1%Z] Pauli p_one.
Definition exY : OS := mkOS [OY; OZ] [1%Z; 3%Z] Pauli p_one.
Definition exZ : OS := mkOS [OZ] [2%Z] Pauli p_one.

(** C19 (value semantics): lookup by position and by string are inverse, membership means
    being listed, [len] counts the positions, negative positions count from the end. *)
Theorem C19_lookup_bijection : forall b, built b ->
  (forall i s, basis_get b (Z.of_nat i) = Ok s -> basis_index b s = Ok i) /\
  (forall s i, basis_index b s = Ok i -> exists t, basis_get b (Z.of_nat i) = Ok t /\ same_key t s) /\
  (forall s, basis_mem b s = true <-> exists i t, basis_get b (Z.of_nat i) = Ok t /\ same_key t s) /\
  (forall s, basis_mem b s = false <-> basis_index b s = Err KeyError) /\
  (forall i, (exists s, basis_get b (Z.of_nat i) = Ok s) <-> i < basis_len b) /\
  (forall i, 0 < i <= basis_len b -> basis_get b (- Z.of_nat i) = basis_get b (Z.of_nat (basis_len b - i))).
Proof. exact lookup_proof. Qed.
Print Assumptions C19_lookup_bijection.
(** For strings with default prefactors having the same key is being the same string. *)
Theorem C19_same_key_is_equal : forall s t, std s -> std t -> same_key s t -> s = t.
Proof. exact same_key_std. Qed.
Print Assumptions C19_same_key_is_equal.
Example C19_example : exists b, basis_new [exX; exY] = Ok b /\ built (basis_iadd_string b exZ) /\
  basis_index (basis_iadd_string b exZ) exZ = Ok 2 /\ std exX /\ std exY.
Proof.
  eexists. split; [reflexivity|]. split; [apply built_iadd_string, (built_new [exX; exY]); reflexivity|].
  split; [reflexivity|]. split; left; reflexivity.
Qed.
(** C19 fails for Basis objects made from the same list object: growing one with [+=] leaves
    the other listing a string that it does not find. *)
Theorem C19_shared_list_refuted : exists h,
  run [CList []; CBasis 0; CBasis 0; CBasisIaddString 0 (mkOS [OX] [1%Z] Pauli p_one)] h_empty = Ok h /\
  exists b s, basis_view h 1 = Ok b /\ basis_get b 0 = Ok s /\ basis_mem b s = false /\ basis_index b s = Err KeyError.
Proof. exact shared_list_witness. Qed.
Print Assumptions C19_shared_list_refuted.

(** C20: [+] and [+=] agree, append exactly the missing strings in order, and adding is
    idempotent and associative. *)
Theorem C20_add_basis : forall b c, built b -> built c ->
  basis_add b c = Ok (basis_iadd b c) /\
  append_new (b_strings b) (b_strings c) (b_strings (basis_iadd b c)) /\
  basis_iadd (basis_iadd b c) c = basis_iadd b c /\
  forall d, built d -> basis_iadd (basis_iadd b c) d = basis_iadd b (basis_iadd c d).
Proof. exact basis_add_proof. Qed.
Print Assumptions C20_add_basis.
Theorem C20_add_string : forall b s, built b ->
  basis_add_string b s = Ok (basis_iadd_string b s) /\
  append_new (b_strings b) [s] (b_strings (basis_iadd_string b s)).
Proof. exact basis_add_string_proof. Qed.
Print Assumptions C20_add_string.
(** What appending the missing strings means: the old strings keep their positions, the new
    ones come from the second list and were absent, nothing is missing, nothing is doubled. *)
Theorem C20_append_new : forall l m r, append_new l m r ->
  (exists k, r = l ++ k /\ (forall s, In s k -> In s m /\ ~ exists t, In t l /\ same_key t s)) /\
  (forall s, In s m -> exists t, In t r /\ same_key t s) /\ (distinct_keys l -> distinct_keys r).
Proof. exact append_new_spec. Qed.
Print Assumptions C20_append_new.
Example C20_example : exists b c, basis_new [exX; exY] = Ok b /\ basis_new [exZ; exY] = Ok c /\
  b_strings (basis_iadd b c) = [exX; exY; exZ].
Proof. do 2 eexists. split; [reflexivity|]. split; reflexivity. Qed.

(** C21: every string has exactly one coefficient in an Operator ... *)
Theorem C21_coefficient : forall o s, made o ->
  exists c, has_coeff (op_terms o) s c /\ forall d, has_coeff (op_terms o) s d -> d = c.
Proof. exact coeff_proof. Qed.
Print Assumptions C21_coefficient.
(** ... and sums, differences, multiples and negatives act on the coefficients. *)
Theorem C21_add_sub : forall o p, made o -> made p ->
  (o_type o <> o_type p -> op_add o p = Err ValueError /\ op_iadd o p = Err ValueError /\
     op_sub o p = Err ValueError /\ op_isub o p = Err ValueError) /\
  (o_type o = o_type p -> exists r q, op_add o p = Ok r /\ op_iadd o p = Ok r /\ op_sub o p = Ok q /\ op_isub o p = Ok q /\
     made r /\ made q /\ o_type r = o_type o /\ o_type q = o_type o /\
     append_new (b_strings (o_basis o)) (b_strings (o_basis p)) (b_strings (o_basis r)) /\
     append_new (b_strings (o_basis o)) (b_strings (o_basis p)) (b_strings (o_basis q)) /\
     forall s c d, has_coeff (op_terms o) s c -> has_coeff (op_terms p) s d ->
       has_coeff (op_terms r) s (gadd c d) /\ has_coeff (op_terms q) s (gsub c d)).
Proof. exact add_proof. Qed.
Print Assumptions C21_add_sub.
Theorem C21_scale : forall z o, made o ->
  exists r m, op_scale z o = Ok r /\ op_neg o = Ok m /\ made r /\ made m /\ o_type r = o_type o /\ o_type m = o_type o /\
    b_strings (o_basis r) = b_strings (o_basis o) /\ b_strings (o_basis m) = b_strings (o_basis o) /\
    forall s c, has_coeff (op_terms o) s c -> has_coeff (op_terms r) s (gmul z c) /\ has_coeff (op_terms m) s (gopp c).
Proof. exact scale_proof. Qed.
Print Assumptions C21_scale.
(** With default prefactors the sum denotes the sum, in every algebra. *)
Theorem C21_add_denotes : forall ty o p r (A : StarAlg) (g : op -> Z -> A), made o -> made p -> op_add o p = Ok r ->
  (forall s, In s (b_strings (o_basis o) ++ b_strings (o_basis p)) -> std s) -> rep ty g ->
  (lincomb g (op_terms r) == lincomb g (op_terms o) + lincomb g (op_terms p))%alg.
Proof. exact add_den_proof. Qed.
Print Assumptions C21_add_denotes.
Example C21_example : exists o p r, op_new [g1; gi] [exX; exY] None = Ok o /\ op_new [g2; gi] [exZ; exY] None = Ok p /\
  made o /\ made p /\ op_add o p = Ok r /\ op_terms r = [(g1, exX); (gadd gi gi, exY); (gadd g0 g2, exZ)].
Proof.
  do 3 eexists. split; [reflexivity|]. split; [reflexivity|].
  split; [exists [g1; gi], [exX; exY], None; split; reflexivity|].
  split; [exists [g2; gi], [exZ; exY], None; split; reflexivity|].
  split; [reflexivity|]. reflexivity.
Qed.

(** C22 fails for two Operators made from one Basis object: updating the first in place
    enlarges the Basis, the second has fewer coefficients than strings, and an update of the
    second that worked before now raises IndexError. *)
Theorem C22_shared_basis_refuted : exists h h',
  run (firstn 6 shared_history) h_empty = Ok h /\ step h (COpIadd 0 2) = Ok h' /\
  (exists b b', basis_view h 0 = Ok b /\ basis_view h' 0 = Ok b' /\ basis_len b = 1 /\ basis_len b' = 2) /\
  (exists v, op_view h' 1 = Ok v /\ length (o_coeffs v) = 1 /\ op_len v = 2) /\
  step h (COpAdd 1 2) <> Err IndexError /\ (exists h2, step h (COpIadd 1 2) = Ok h2) /\
  step h' (COpIadd 1 2) = Err IndexError.
Proof. exact shared_basis_witness. Qed.
Print Assumptions C22_shared_basis_refuted.
(** C22, the part that holds: in every history that builds Operators from lists or from other
    Operators, an in-place update changes only its target, as in C21, and every Operator keeps
    as many coefficients as strings. *)
Theorem C22_iadd_partial : forall h o p h', history h -> step h (COpIadd o p) = Ok h' ->
  (exists v w, op_view h o = Ok v /\ op_view h p = Ok w /\ op_view h' o = op_iadd v w) /\
  (forall q, q <> o -> op_view h' q = op_view h q) /\
  (forall q v, op_view h' q = Ok v -> length (o_coeffs v) = length (b_strings (o_basis v))).
Proof. exact history_iadd. Qed.
Print Assumptions C22_iadd_partial.
Theorem C22_isub_partial : forall h o p h', history h -> step h (COpIsub o p) = Ok h' ->
  (exists v w, op_view h o = Ok v /\ op_view h p = Ok w /\ op_view h' o = op_isub v w) /\
  (forall q, q <> o -> op_view h' q = op_view h q) /\
  (forall q v, op_view h' q = Ok v -> length (o_coeffs v) = length (b_strings (o_basis v))).
Proof. exact history_isub. Qed.
Print Assumptions C22_isub_partial.
Example C22_example : exists h h', history h /\ step h (COpIadd 0 1) = Ok h' /\
  (exists v, op_view h' 0 = Ok v /\ op_len v = 3) /\ exists w, op_view h' 1 = Ok w /\ op_len w = 2.
Proof.
  pose proof (hist_step h_empty (CList [exX; exY]) _ hist_nil I I eq_refl) as H1.
  assert (L1 : lengths_agree (mkHeap [[exX; exY]] [] []) (COpList [g1; g2] 0 None)) by (intros l Hl; injection Hl as <-; reflexivity).
  pose proof (hist_step _ (COpList [g1; g2] 0 None) _ H1 I L1 eq_refl) as H2.
  pose proof (hist_step _ (CList [exZ; exY]) _ H2 I I eq_refl) as H3. cbv -[gadd gmul g0 g1 g2 gi p_one] in H3.
  match type of H3 with history ?h => 
    assert (L3 : lengths_agree h (COpList [gi; g1] 2 None)) by (intros l Hl; injection Hl as <-; reflexivity) end.
  pose proof (hist_step _ (COpList [gi; g1] 2 None) _ H3 I L3 eq_refl) as H4.
  eexists. eexists. split; [exact H4|]. split; [reflexivity|].
  split; eexists; (split; [reflexivity|]; reflexivity).
Qed.

(** C23: remove_zeros keeps exactly the terms with |coefficient| > tol, in order. *)
Theorem C23_remove_zeros : forall tol o, made o -> exists r, op_remove_zeros tol o = Ok r /\ made r /\
  op_terms r = filter (fun t => abs_gtb (fst t) tol) (op_terms o) /\
  ((forall s, In s (b_strings (o_basis o)) -> os_type s = o_type o) -> o_type r = o_type o).
Proof. exact remove_zeros_proof. Qed.
Print Assumptions C23_remove_zeros.
(** C23: to_vector lists the coefficients, or raises KeyError. *)
Theorem C23_to_vector : forall o b, made o -> built b ->
  ((forall t, In t (b_strings (o_basis o)) -> basis_mem b t = true) ->
   exists v, op_to_vector o b = Ok v /\ length v = basis_len b /\
     forall i s, basis_get b (Z.of_nat i) = Ok s -> exists c, nth_error v i = Some c /\ has_coeff (op_terms o) s c) /\
  ((exists t, In t (b_strings (o_basis o)) /\ basis_mem b t = false) -> op_to_vector o b = Err KeyError).
Proof. exact to_vector_proof. Qed.
Print Assumptions C23_to_vector.
Example C23_example : exists o b, op_new [g1; gi] [exX; exY] None = Ok o /\ basis_new [exZ; exY; exX] = Ok b /\
  made o /\ built b /\ op_to_vector o b = Ok [g0; gi; g1] /\
  exists b', basis_new [exZ; exY] = Ok b' /\ op_to_vector o b' = Err KeyError.
Proof.
  do 2 eexists. split; [reflexivity|]. split; [reflexivity|].
  split; [exists [g1; gi], [exX; exY], None; split; reflexivity|].
  split; [apply (built_new [exZ; exY; exX]); reflexivity|].
  split; [reflexivity|]. eexists. split; reflexivity.
Qed.
