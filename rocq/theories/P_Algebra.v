(** Properties C07-C13: products, commutators and anticommutators of operator strings. *)
From Coq Require Import String List ZArith Bool Arith Sorted.
From Verif Require Import GC Exn PyStr M_OpString M_Algebra S_Alg S_Den L_PropStr.
Import ListNotations.
Local Open Scope string_scope.
Local Open Scope alg_scope.

(** Two strings meeting the hypotheses below (unsorted labels, overlapping). *)
Definition exS : OS := mkOS [OA; OB; OD] [5%Z; 2%Z; 9%Z] Majorana p_j.
Definition exT : OS := mkOS [OB; OA; OA] [2%Z; 9%Z; (-3)%Z] Majorana p_j.
Example ex_ok : string_ok Majorana exS /\ string_ok Majorana exT.
Proof.
  split; (split; [reflexivity | split; [reflexivity | split; [|split; [|reflexivity]]]]).
  - simpl; intros o [<-|[<-|[<-|[]]]]; reflexivity.
  - repeat constructor; simpl; intuition discriminate.
  - simpl; intros o [<-|[<-|[<-|[]]]]; reflexivity.
  - repeat constructor; simpl; intuition discriminate.
Qed.

(** C07: the product is exact. *)
Theorem C07_product_exact : forall ty S T, ty <> Fermion -> string_ok ty S -> string_ok ty T ->
  exists k C, product S T = Ok (k, Some C) /\
    forall (A : StarAlg) (g : op -> Z -> A), rep ty g -> den g S * den g T == k · den g C.
Proof. exact product_proof. Qed.
Print Assumptions C07_product_exact.

(** C08: the commutator is exact, and the zero result means exactly that they commute. *)
Theorem C08_commutator_exact : forall ty S T, ty <> Fermion -> string_ok ty S -> string_ok ty T ->
  (exists k C, commutator S T = Ok (k, Some C) /\
     (forall (A : StarAlg) (g : op -> Z -> A), rep ty g ->
        asub (den g S * den g T) (den g T * den g S) == k · den g C /\
        (~ (@aone A == azero) -> ~ (den g S * den g T == den g T * den g S)))) \/
  (commutator S T = Ok (g0, None) /\
     (forall (A : StarAlg) (g : op -> Z -> A), rep ty g -> den g S * den g T == den g T * den g S)).
Proof. exact commutator_proof. Qed.
Print Assumptions C08_commutator_exact.

(** C09: the anticommutator is exact, and the zero result means exactly that they anticommute. *)
Theorem C09_anticommutator_exact : forall ty S T, ty <> Fermion -> string_ok ty S -> string_ok ty T ->
  (exists k C, anticommutator S T = Ok (k, Some C) /\
     (forall (A : StarAlg) (g : op -> Z -> A), rep ty g ->
        den g S * den g T + den g T * den g S == k · den g C /\
        (~ (@aone A == azero) -> ~ (den g S * den g T == gm1 · (den g T * den g S))))) \/
  (anticommutator S T = Ok (g0, None) /\
     (forall (A : StarAlg) (g : op -> Z -> A), rep ty g -> den g S * den g T == gm1 · (den g T * den g S))).
Proof. exact anticommutator_proof. Qed.
Print Assumptions C09_anticommutator_exact.

(** C10: exactly one of the two is zero, the other is twice the product. *)
Theorem C10_commute_or_anticommute : forall ty S T, ty <> Fermion -> string_ok ty S -> string_ok ty T ->
  exists k C, product S T = Ok (k, Some C) /\
    ((commutator S T = Ok (gmul g2 k, Some C) /\ anticommutator S T = Ok (g0, None)) \/
     (commutator S T = Ok (g0, None) /\ anticommutator S T = Ok (gmul g2 k, Some C))).
Proof. exact dichotomy_proof. Qed.
Print Assumptions C10_commute_or_anticommute.

(** C11: results are well formed. *)
Theorem C11_results_well_formed : forall ty S T, ty <> Fermion -> string_ok ty S -> string_ok ty T -> forall m,
  operation_opstring m S T = Ok (g0, None) \/
  exists k C, operation_opstring m S T = Ok (k, Some C) /\
    os_new (os_ops C) (os_labels C) ty = Ok C /\
    StronglySorted Z.lt (os_labels C) /\ length (os_ops C) = length (os_labels C) /\
    (forall o, In o (os_ops C) -> is_op_of ty o = true) /\
    (forall l, In l (os_labels C) -> In l (os_labels S) \/ In l (os_labels T)) /\
    (forall (A : StarAlg) (g : op -> Z -> A), rep ty g -> (den g C)^* == den g C).
Proof. exact wf_proof. Qed.
Print Assumptions C11_results_well_formed.

(** C12, strings: the product is associative, as coefficients and strings. *)
Theorem C12_product_assoc : forall ty P Q R, ty <> Fermion -> string_ok ty P -> string_ok ty Q -> string_ok ty R ->
  exists k1 k2 k3 k4 PQ QR D, product P Q = Ok (k1, Some PQ) /\ product PQ R = Ok (k2, Some D) /\
    product Q R = Ok (k3, Some QR) /\ product P QR = Ok (k4, Some D) /\ gmul k1 k2 = gmul k3 k4.
Proof. exact assoc_proof. Qed.
Print Assumptions C12_product_assoc.

(** C13 is false: a Pauli first operand accepts any second operand on other labels and returns
    a string mixing the types. *)
Theorem C13_mixed_types_refuted : exists S T k C,
  opstring "X 1" None = Ok S /\ opstring "A 2" None = Ok T /\ os_type S <> os_type T /\
  product S T = Ok (k, Some C) /\ exists o, In o (os_ops C) /\ is_op_of (os_type C) o = false.
Proof.
  exists (mkOS [OX] [1%Z] Pauli p_one), (mkOS [OA] [2%Z] Majorana p_one), (gdiv (gmul g1 g1) g1),
         (mkOS [OX; OA] [1%Z; 2%Z] Pauli p_one).
  split; [reflexivity|]. split; [reflexivity|]. split; [discriminate|]. split; [vm_compute; reflexivity|].
  exists OA. split; [right; left; reflexivity | reflexivity].
Qed.
Print Assumptions C13_mixed_types_refuted.

(** C13, the part that holds: a Majorana or Fermion first operand rejects other types. *)
Theorem C13_mixed_types_partial : forall m S T, os_type S <> os_type T -> os_type S <> Pauli ->
  exists e, operation_opstring m S T = Err e.
Proof. exact mixed_partial_proof. Qed.
Print Assumptions C13_mixed_types_partial.
Example C13_example : operation_opstring MProduct exS (mkOS [OX] [1%Z] Pauli p_one) = Err AttributeError.
Proof. reflexivity. Qed.
