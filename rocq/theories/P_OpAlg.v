(** Properties C12 (operators), C14-C18: the algebra of Operators. *)
From Coq Require Import String List ZArith Bool Arith QArith Qcanon.
From Verif Require Import GC Exn S_Alg S_Den S_Fock S_Basis S_Built S_OpAlg M_OpString M_Algebra M_Basis M_OpAlg
  L_PropStr L_Fock L_Indep L_Basis L_OpAlg L_Struct L_Commutant L_Jacobi L_Lie L_PropOpAlg.
Import ListNotations.
Local Open Scope nat_scope.
Local Open Scope alg_scope.

(** C12: [A,B] + [B,A] is the zero operator, for all coefficients. *)
Theorem C12_antisymmetry : forall ty A B, ty <> Fermion -> good_op ty A -> good_op ty B ->
  exists X Y R, commutator_op A B = Ok X /\ commutator_op B A = Ok Y /\ op_add X Y = Ok R /\
    forall c, In c (o_coeffs R) -> c = g0.
Proof. exact antisymmetry_proof. Qed.
Print Assumptions C12_antisymmetry.

(** C12: the full claim is the Jacobi identity for all Operators; it is false
    ([C12_jacobi_refuted]) because terms below 1e-16 are dropped.  It holds for Gaussian
    integer coefficients ... *)
Theorem C12_jacobi_partial : forall ty A B C, ty <> Fermion -> good_op ty A -> good_op ty B -> good_op ty C ->
  int_coeffs A -> int_coeffs B -> int_coeffs C ->
  exists BC CA AB X Y Z XY R,
    commutator_op B C = Ok BC /\ commutator_op C A = Ok CA /\ commutator_op A B = Ok AB /\
    commutator_op A BC = Ok X /\ commutator_op B CA = Ok Y /\ commutator_op C AB = Ok Z /\
    op_add X Y = Ok XY /\ op_add XY Z = Ok R /\ forall c, In c (o_coeffs R) -> c = g0.
Proof. exact jacobi_proof. Qed.
Print Assumptions C12_jacobi_partial.
(** ... and for any coefficients when no product of coefficients is non-zero and below 1e-16. *)
Theorem C12_jacobi_no_small_partial : forall ty A B C BC CA AB, ty <> Fermion ->
  good_op ty A -> good_op ty B -> good_op ty C ->
  commutator_op B C = Ok BC -> commutator_op C A = Ok CA -> commutator_op A B = Ok AB ->
  no_small B C -> no_small C A -> no_small A B -> no_small A BC -> no_small B CA -> no_small C AB ->
  exists X Y Z XY R,
    commutator_op A BC = Ok X /\ commutator_op B CA = Ok Y /\ commutator_op C AB = Ok Z /\
    op_add X Y = Ok XY /\ op_add XY Z = Ok R /\ forall c, In c (o_coeffs R) -> c = g0.
Proof. exact jacobi_no_small_proof. Qed.
Print Assumptions C12_jacobi_no_small_partial.
(** 1e10 Y_1, 1e-9 Y_1 and 1e-9 Z_1 violate the identity. *)
Theorem C12_jacobi_refuted : exists A B C BC CA AB X Y Z XY R,
    good_op Pauli A /\ good_op Pauli B /\ good_op Pauli C /\
    commutator_op B C = Ok BC /\ commutator_op C A = Ok CA /\ commutator_op A B = Ok AB /\
    commutator_op A BC = Ok X /\ commutator_op B CA = Ok Y /\ commutator_op C AB = Ok Z /\
    op_add X Y = Ok XY /\ op_add XY Z = Ok R /\ exists c, In c (o_coeffs R) /\ c <> g0.
Proof. exact jacobi_witness. Qed.
Print Assumptions C12_jacobi_refuted.
(** The hypotheses are met by X_1 + 2 Z_1, i X_1 X_2 and Y_1. *)
Example C12_operators_example : exists A B C,
  good_op Pauli A /\ good_op Pauli B /\ good_op Pauli C /\ int_coeffs A /\ int_coeffs B /\ int_coeffs C /\
  op_len A = 2 /\ exists D, commutator_op A B = Ok D /\ op_len D = 1.
Proof.
  exists (mkOperator [g1; g2] (mkBasis [sX1; sZ1] [(sX1, 0); (sZ1, 1)]) Pauli), (mkOperator [gi] (mkBasis [sXX] [(sXX, 0)]) Pauli),
         (mkOperator [g1] (mkBasis [sY1] [(sY1, 0)]) Pauli).
  split; [apply (good_op_intro Pauli [g1; g2] [sX1; sZ1]); try reflexivity; intros s [<-|[<-|[]]]; [apply ok_X1 | apply ok_Z1]|].
  split; [apply (good_op_intro Pauli [gi] [sXX]); try reflexivity; intros s [<-|[]]; apply ok_XX|].
  split; [apply (good_op_intro Pauli [g1] [sY1]); try reflexivity; intros s [<-|[]]; apply ok_Y1|].
  split; [intros c [<-|[<-|[]]]; [exists 1%Z, 0%Z | exists 2%Z, 0%Z]; apply GC_ext; apply Qc_is_canon; reflexivity|].
  split; [intros c [<-|[]]; exists 0%Z, 1%Z; apply GC_ext; apply Qc_is_canon; reflexivity|].
  split; [intros c [<-|[]]; exists 1%Z, 0%Z; apply GC_ext; apply Qc_is_canon; reflexivity|].
  split; [reflexivity|]. eexists. split; reflexivity.
Qed.

(** C14: on Operators the operations succeed and denote the operation of the algebra, up to
    terms, at most one per pair, that are contributions of a pair below 1e-16. *)
Theorem C14_operation : forall ty m A B, ty <> Fermion -> good_op ty A -> good_op ty B ->
  exists C dr, operation_operator m A B = Ok C /\ good_op ty C /\ canonical_op C /\
    length dr <= op_len A * op_len B /\ (forall x, In x dr -> dropped_from m (op_terms A) (op_terms B) x) /\
    forall (Al : StarAlg) (g : op -> Z -> Al), rep ty g ->
      lincomb g (op_terms C) + lincomb g dr == exact m (lincomb g (op_terms A)) (lincomb g (op_terms B)).
Proof. exact operation_dropped_proof. Qed.
Print Assumptions C14_operation.
(** ... exactly, if no product of two coefficients is non-zero and below 1e-16. *)
Theorem C14_operation_exact : forall ty m A B, ty <> Fermion -> good_op ty A -> good_op ty B -> no_small A B ->
  exists C, operation_operator m A B = Ok C /\ good_op ty C /\ canonical_op C /\
    forall (Al : StarAlg) (g : op -> Z -> Al), rep ty g ->
      lincomb g (op_terms C) == exact m (lincomb g (op_terms A)) (lincomb g (op_terms B)).
Proof. exact operation_exact. Qed.
Print Assumptions C14_operation_exact.
Theorem C14_types : forall m A B, o_type A <> o_type B -> operation_operator m A B = Err ValueError.
Proof. exact operation_operator_types. Qed.
Print Assumptions C14_types.
Example C14_example : exists A B C, good_op Pauli A /\ good_op Pauli B /\ no_small A B /\
  operation_operator MProduct A B = Ok C /\ op_terms C = [(g1, sY1); (gmul g2 gi, sX1)].
Proof.
  exists (mkOperator [gi; g2] (mkBasis [sX1; sY1] [(sX1, 0); (sY1, 1)]) Pauli), (mkOperator [g1] (mkBasis [sZ1] [(sZ1, 0)]) Pauli).
  exists (mkOperator [g1; gmul g2 gi] (mkBasis [sY1; sX1] [(sY1, 0); (sX1, 1)]) Pauli).
  split; [apply (good_op_intro Pauli [gi; g2] [sX1; sY1]); try reflexivity; intros s [<-|[<-|[]]]; [apply ok_X1 | apply ok_Y1]|].
  split; [apply (good_op_intro Pauli [g1] [sZ1]); try reflexivity; intros s [<-|[]]; apply ok_Z1|].
  split; [intros a b [<-|[<-|[]]] [<-|[]]; right; reflexivity|].
  split; reflexivity.
Qed.

(** C15: structure constants, for the product, commutator and anticommutator modes. *)
Theorem C15_structure_constants : forall ty m tol A B, ty <> Fermion -> (0 <= tol)%Qc -> (tol <= 1)%Qc ->
  good_basis ty A -> good_basis ty B ->
  exists Ns C, structure_constants m tol A B = Ok (combine (b_strings B) Ns, C) /\
    length Ns = basis_len B /\ canonical_basis ty C /\
    (forall c, In c (b_strings C) -> exists S T k, In S (b_strings A) /\ In T (b_strings B) /\ operation_opstring m S T = Ok (k, Some c)) /\
    forall a b S T N, nth_error (b_strings A) a = Some S -> nth_error (b_strings B) b = Some T -> nth_error Ns b = Some N ->
      sm_rows N = basis_len C /\ sm_cols N = basis_len A /\
      forall (Al : StarAlg) (g : op -> Z -> Al), rep ty g ->
        exact m (den g S) (den g T) == lincomb g (combine (column N a) (b_strings C)).
Proof. exact structure_constants_proof. Qed.
Print Assumptions C15_structure_constants.
Example C15_example : exists A B d C, basis_new [sX1; sY1] = Ok A /\ basis_new [sZ1] = Ok B /\
  good_basis Pauli A /\ good_basis Pauli B /\ structure_constants MCommutator tol12 A B = Ok (d, C) /\ b_strings C = [sY1; sX1] /\
  exists N, dget os_key d sZ1 = Some N /\ column N 0 = [gopp (gmul g2 gi); g0] /\ column N 1 = [g0; gmul g2 gi].
Proof.
  do 4 eexists. split; [reflexivity|]. split; [reflexivity|].
  split; [apply (good_basis_intro Pauli [sX1; sY1]); [reflexivity | intros s [<-|[<-|[]]]; [apply ok_X1 | apply ok_Y1]]|].
  split; [apply (good_basis_intro Pauli [sZ1]); [reflexivity | intros s [<-|[]]; apply ok_Z1]|].
  split; [reflexivity|]. split; [reflexivity|]. eexists. split; [reflexivity|].
  split; reflexivity.
Qed.

(** C16: the columns of the Liouvillian of a Basis ... *)
Theorem C16_liouvillian_basis : forall ty m b o, ty <> Fermion -> good_basis ty b -> good_op ty o ->
  exists L C, liouvillian_matrix m (ABasis b) o = Ok (L, C) /\ canonical_basis ty C /\
    sm_rows L = basis_len C /\ sm_cols L = basis_len b /\ (forall e, In e (sm_trip L) -> fst (fst e) < sm_rows L /\ snd (fst e) < sm_cols L) /\
    forall a S, nth_error (b_strings b) a = Some S -> forall (Al : StarAlg) (g : op -> Z -> Al), rep ty g ->
      exact m (den g S) (lincomb g (op_terms o)) == lincomb g (combine (column L a) (b_strings C)).
Proof. exact liouvillian_strings_proof. Qed.
Print Assumptions C16_liouvillian_basis.
(** ... and of a list of Operators. *)
Theorem C16_liouvillian_operators : forall ty m ops o, ty <> Fermion -> ops <> [] -> (forall p, In p ops -> good_op ty p) -> good_op ty o ->
  exists L C, liouvillian_matrix m (AOperators ops) o = Ok (L, C) /\ canonical_basis ty C /\
    sm_rows L = basis_len C /\ sm_cols L = length ops /\ (forall e, In e (sm_trip L) -> fst (fst e) < sm_rows L /\ snd (fst e) < sm_cols L) /\
    forall a P, nth_error ops a = Some P -> forall (Al : StarAlg) (g : op -> Z -> Al), rep ty g ->
      exact m (lincomb g (op_terms P)) (lincomb g (op_terms o)) == lincomb g (combine (column L a) (b_strings C)).
Proof. exact liouvillian_operators_proof. Qed.
Print Assumptions C16_liouvillian_operators.
Example C16_example : exists A o L C, good_basis Pauli A /\ good_op Pauli o /\
  liouvillian_matrix MCommutator (ABasis A) o = Ok (L, C) /\ b_strings A = [sX1; sZ2] /\ b_strings C = [sY1; mkOS [OX; OY] [1%Z; 2%Z] Pauli p_one] /\
  column L 0 = [gopp (gmul g2 gi); g0] /\ column L 1 = [g0; gmul (gz 6) gi].
Proof.
  exists (mkBasis [sX1; sZ2] [(sX1, 0); (sZ2, 1)]), (mkOperator [g1; gz 3] (mkBasis [sZ1; sXX] [(sZ1, 0); (sXX, 1)]) Pauli). do 2 eexists.
  split; [apply (good_basis_intro Pauli [sX1; sZ2]); [reflexivity | intros s [<-|[<-|[]]]; [apply ok_X1 | apply ok_Z2]]|].
  split; [apply (good_op_intro Pauli [g1; gz 3] [sZ1; sXX]); try reflexivity; intros s [<-|[<-|[]]]; [apply ok_Z1 | apply ok_XX]|].
  split; [reflexivity|]. split; [reflexivity|]. split; [reflexivity|]. split; reflexivity.
Qed.

(** C17: the kernel of the commutant matrix is the commutant, for a Basis ... *)
Theorem C17_commutant_basis : forall ty m b o, ty <> Fermion -> good_basis ty b -> good_op ty o ->
  exists M C, commutant_matrix m (ABasis b) o = Ok (M, C) /\ sm_rows M = basis_len b /\ sm_cols M = basis_len b /\
    forall (A : StarAlg) (g : op -> Z -> A), rep ty g -> ~ (@aone A == azero) -> forall v, length v = basis_len b ->
      (matvec M v = repeat g0 (basis_len b) <->
       exact m (lincomb g (combine v (b_strings b))) (lincomb g (op_terms o)) == azero).
Proof. exact commutant_strings_proof. Qed.
Print Assumptions C17_commutant_basis.
(** ... and for a list of Operators. *)
Theorem C17_commutant_operators : forall ty m ops o, ty <> Fermion -> ops <> [] -> (forall p, In p ops -> good_op ty p) -> good_op ty o ->
  exists M C, commutant_matrix m (AOperators ops) o = Ok (M, C) /\ sm_rows M = length ops /\ sm_cols M = length ops /\
    forall (A : StarAlg) (g : op -> Z -> A), rep ty g -> ~ (@aone A == azero) -> forall v, length v = length ops ->
      (matvec M v = repeat g0 (length ops) <->
       exact m (op_sum g v ops) (lincomb g (op_terms o)) == azero).
Proof. exact commutant_operators_proof. Qed.
Print Assumptions C17_commutant_operators.
(** A non-trivial representation exists, and Z_1 commutes with Z_1 while X_1 does not. *)
Example C17_example : (forall ty, ty <> Fermion -> rep ty fock_gen) /\ ~ (@aone Fock == azero) /\
  exists A o M C, good_basis Pauli A /\ good_op Pauli o /\ commutant_matrix MCommutator (ABasis A) o = Ok (M, C) /\
    matvec M [g0; g1] = [g0; g0] /\ matvec M [g1; g0] = [gz 4; g0].
Proof.
  split; [exact fock_rep|]. split; [exact fock_nontrivial|].
  exists (mkBasis [sX1; sZ1] [(sX1, 0); (sZ1, 1)]), (mkOperator [g1] (mkBasis [sZ1] [(sZ1, 0)]) Pauli). do 2 eexists.
  split; [apply (good_basis_intro Pauli [sX1; sZ1]); [reflexivity | intros s [<-|[<-|[]]]; [apply ok_X1 | apply ok_Z1]]|].
  split; [apply (good_op_intro Pauli [g1] [sZ1]); try reflexivity; intros s [<-|[]]; apply ok_Z1|].
  split; [reflexivity|]. split; reflexivity.
Qed.

(** C18: [generate_lie_algebra] of a Basis terminates with the smallest extension of the input
    closed under commutators. *)
Theorem C18_lie_algebra : forall ty tol b, ty <> Fermion -> (0 < tol)%Qc -> (tol <= 1)%Qc -> good_basis ty b ->
  exists fuel0 r, (forall fuel, fuel0 <= fuel -> generate_lie_algebra fuel tol b = Some (Ok r)) /\
    good_basis ty r /\ (exists m, b_strings r = b_strings b ++ m) /\
    (forall S T k c, In S (b_strings r) -> In T (b_strings r) -> commutator S T = Ok (k, Some c) -> In c (b_strings r)) /\
    (forall s, In s (b_strings r) -> nested (b_strings b) s) /\
    (forall l, (forall s, In s (b_strings b) -> In s l) ->
               (forall S T k c, In S l -> In T l -> commutator S T = Ok (k, Some c) -> In c l) ->
               forall s, In s (b_strings r) -> In s l).
Proof. exact lie_proof. Qed.
Print Assumptions C18_lie_algebra.
Example C18_example : exists b r, good_basis Pauli b /\ b_strings b = [sX1; sXX; sZ2] /\
  generate_lie_algebra 200 tol12 b = Some (Ok r) /\
  b_strings r = [sX1; sXX; sZ2; mkOS [OX; OY] [1%Z; 2%Z] Pauli p_one].
Proof.
  exists (mkBasis [sX1; sXX; sZ2] [(sX1, 0); (sXX, 1); (sZ2, 2)]). eexists.
  split; [apply (good_basis_intro Pauli [sX1; sXX; sZ2]); [reflexivity | intros s [<-|[<-|[<-|[]]]]; [apply ok_X1 | apply ok_XX | apply ok_Z2]]|].
  split; [reflexivity|]. split; reflexivity.
Qed.
(** The hypothesis [0 < tol] is needed: with [tol = 0] the call raises TypeError. *)
Example C18_zero_tolerance : exists b, good_basis Pauli b /\ generate_lie_algebra 200 0%Qc b = Some (Err TypeError).
Proof.
  exists (mkBasis [sX1] [(sX1, 0)]).
  split; [apply (good_basis_intro Pauli [sX1]); [reflexivity | intros s [<-|[]]; apply ok_X1]|]. reflexivity.
Qed.
