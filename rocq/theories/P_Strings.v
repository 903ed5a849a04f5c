(** Properties C01-C06: construction, printing and parsing of operator strings. *)
From Coq Require Import String List ZArith Bool Arith Sorted.
From Verif Require Import GC Exn PyStr M_OpString S_Alg S_Den S_Fock L_Fock L_PropStr L_Parse.
Import ListNotations.
Local Open Scope string_scope.
Local Open Scope alg_scope.

(** C01: a string built with the default prefactor is Hermitian and squares to one. *)
Theorem C01_hermitian_unitary : forall ty ops labels,
  ty <> Fermion -> length ops = length labels ->
  (forall o, In o ops -> is_op_of ty o = true) -> NoDup labels ->
  exists s, os_new ops labels ty = Ok s /\ os_ops s = ops /\ os_labels s = labels /\ os_type s = ty /\
    forall (A : StarAlg) (g : op -> Z -> A), rep ty g ->
      (den g s)^* == den g s /\ den g s * den g s == aone.
Proof. exact hermitian_proof. Qed.
Print Assumptions C01_hermitian_unitary.

(** The relations are satisfiable in an algebra with [1 <> 0], and the operator lists are
    not restricted to sorted labels: [A 3 B 1 A 2] gets the prefactor [i]. *)
Theorem C01_satisfiable :
  rep Pauli fock_gen /\ rep Majorana fock_gen /\ ~ (@aone Fock == azero).
Proof. exact (conj fock_pauli (conj fock_majorana fock_nontrivial)). Qed.
Print Assumptions C01_satisfiable.
Example C01_example :
  exists s, os_new [OA; OB; OA; OD] [3%Z; 1%Z; 2%Z; 7%Z] Majorana = Ok s /\ os_name s = "1j A 3 B 1 A 2 D 7 ".
Proof. eexists; split; reflexivity. Qed.

(** C02 is false: a Majorana string that is not Hermitian is accepted. *)
Theorem C02_accepted_hermitian_refuted :
  exists s, opstring "1j A 1" None = Ok s /\ os_type s = Majorana /\
    exists (A : StarAlg) (g : op -> Z -> A), rep Majorana g /\ ~ (den g s)^* == den g s.
Proof. exact not_hermitian_witness. Qed.
Print Assumptions C02_accepted_hermitian_refuted.

(** C02, the part that holds: Pauli strings with any accepted prefactor, Majorana strings
    whose caller passes the prefactor one (in any spelling).  Missing: Majorana strings with an
    explicit prefactor [1j], where the claim is false. *)
Theorem C02_accepted_hermitian_partial : forall ty ops labels p s,
  ty <> Fermion -> length ops = length labels ->
  (forall o, In o ops -> is_op_of ty o = true) -> NoDup labels ->
  (ty = Majorana -> pval p = g1) -> os_make ops labels ty p = Ok s ->
  forall (A : StarAlg) (g : op -> Z -> A), rep ty g -> (den g s)^* == den g s.
Proof. exact accepted_hermitian_proof. Qed.
Print Assumptions C02_accepted_hermitian_partial.
Example C02_example : exists s, os_make [OX; OZ] [2%Z; 1%Z] Pauli p_cplx1 = Ok s.
Proof. eexists; reflexivity. Qed.

(** C03 is false: ['1.0 X 1'] and ['X 1'] are equal but hash differently, so one does not find
    the other in a dictionary. *)
Theorem C03_eq_hash_refuted :
  exists s t, opstring "1.0 X 1" None = Ok s /\ opstring "X 1" None = Ok t /\
    os_eqb s t = true /\ os_hash s <> os_hash t /\ os_key s t = false.
Proof.
  exists (mkOS [OX] [1%Z] Pauli p_cplx1), (mkOS [OX] [1%Z] Pauli p_one).
  split; [reflexivity|]. split; [reflexivity|]. split; [reflexivity|].
  split; [discriminate | reflexivity].
Qed.
Print Assumptions C03_eq_hash_refuted.

(** C03 for strings built with the default prefactor.  Missing: explicit prefactors. *)
Theorem C03_eq_hash_partial : forall ty ops labels s t, ty <> Fermion \/ ty = Fermion ->
  os_new ops labels ty = Ok s -> (exists ops' labels' ty', os_new ops' labels' ty' = Ok t) ->
  os_eqb s t = true -> os_hash s = os_hash t.
Proof. exact key_default_proof. Qed.
Print Assumptions C03_eq_hash_partial.
Example C03_example : exists s, os_new [OCDag; OC] [1%Z; 2%Z] Fermion = Ok s /\ os_eqb s s = true.
Proof. eexists; split; reflexivity. Qed.

(** C04: printing and re-parsing returns the operators, labels, type and prefactor value, for
    every string built by the constructor with prefactor 1.0 or 1j, of any type. *)
Theorem C04_print_parse_partial : forall ty ops labels p s,
  (p = p_one \/ p = p_j) -> length ops = length labels -> ops <> [] ->
  (forall o, In o ops -> is_op_of ty o = true) ->
  os_make ops labels ty p = Ok s ->
  exists s', opstring (os_name s) None = Ok s' /\
             os_ops s' = os_ops s /\ os_labels s' = os_labels s /\ os_type s' = os_type s /\
             pval (os_pref s') = pval (os_pref s).
Proof. exact parse_print. Qed.
Print Assumptions C04_print_parse_partial.
Example C04_example : exists s s',
  os_make [OX; OZ] [(-12)%Z; 305%Z] Pauli p_one = Ok s /\ os_name s = "1.0 X -12 Z 305 " /\
  opstring (os_name s) None = Ok s' /\ os_eqb s s' = true.
Proof. do 2 eexists; repeat split; reflexivity. Qed.

(** C04 is false beyond that: the re-parsed string is a different dictionary key, and printing
    it again gives a text that is rejected. *)
Theorem C04_print_parse_refuted : exists s s',
  os_new [OX] [1%Z] Pauli = Ok s /\ opstring (os_name s) None = Ok s' /\
  os_key s s' = false /\ opstring (os_name s') None = Err ValueError.
Proof.
  exists (mkOS [OX] [1%Z] Pauli p_one), (mkOS [OX] [1%Z] Pauli p_cplx1). repeat split; reflexivity.
Qed.
Print Assumptions C04_print_parse_refuted.

(** C05 is false: lists of different length are accepted. *)
Theorem C05_length_check_refuted :
  (exists ops labels s, length ops <> length labels /\ os_new ops labels Pauli = Ok s) /\
  (exists s, opstring "X 1 Y" None = Ok s /\ length (os_ops s) <> length (os_labels s)).
Proof.
  split.
  - exists [OX; OY], [1%Z], (mkOS [OX; OY] [1%Z] Pauli p_one). split; [discriminate | reflexivity].
  - exists (mkOS [OX; OY] [1%Z] Pauli p_one). split; [reflexivity | discriminate].
Qed.
Print Assumptions C05_length_check_refuted.

(** C06 is false: operators of other types and unknown names are accepted before the last one. *)
Theorem C06_type_check_refuted :
  (exists s, opstring "X 1 A 2" None = Ok s /\ os_type s = Majorana /\
     exists o, In o (os_ops s) /\ is_op_of Majorana o = false) /\
  (exists s, opstring "X 1 Q 2 Z 3" None = Ok s /\ exists o, In o (os_ops s) /\ is_valid_op o = false).
Proof.
  split.
  - exists (mkOS [OX; OA] [1%Z; 2%Z] Majorana p_one). split; [reflexivity|]. split; [reflexivity|].
    exists OX. split; [left; reflexivity | reflexivity].
  - exists (mkOS [OX; OOther "Q"; OZ] [1%Z; 2%Z; 3%Z] Pauli p_one). split; [reflexivity|].
    exists (OOther "Q"). split; [right; left; reflexivity | reflexivity].
Qed.
Print Assumptions C06_type_check_refuted.

(** C06, the part that holds: the last operator is of the type.  Missing: the others. *)
Theorem C06_type_check_partial : forall name ty s, opstring name ty = Ok s ->
  os_ops s = [] \/ exists o, (exists r, os_ops s = r ++ [o])%list /\ is_op_of (os_type s) o = true.
Proof. exact last_op_proof. Qed.
Print Assumptions C06_type_check_partial.
Example C06_example : exists s, opstring "1j CDag 1 CDag 2 C 3" (Some Fermion) = Ok s.
Proof. exists (mkOS [OCDag; OCDag; OC] [1%Z; 2%Z; 3%Z] Fermion p_j). vm_compute. reflexivity. Qed.
