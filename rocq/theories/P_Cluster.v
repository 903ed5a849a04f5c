(** Properties C24, C26, C27: cluster_basis and distance_basis. *)
From Coq Require Import List ZArith Bool Arith Permutation.
From Verif Require Import GC Exn S_Alg S_Den S_Basis S_Built S_Cluster M_OpString M_Basis M_Cluster L_Cluster L_Distance.
Import ListNotations.
Local Open Scope nat_scope.

(** C24: [cluster_basis] lists, exactly once each, the strings of its type on the given
    labels with a permitted number of (creation) operators, and the identity on request;
    the number of strings is the expected sum of binomials.  Also for Fermion strings. *)
Theorem C24_cluster_basis : forall k labels ty id, NoDup labels -> k_valid k ->
  exists b, cluster_basis k labels ty id = Ok b /\ built b /\ NoDup (b_strings b) /\
    (forall s, In s (b_strings b) <-> (id = true /\ s = identity_string ty) \/ (local_string ty k s /\ forall x, In x (os_labels s) -> In x labels)) /\
    basis_len b = (if id then 1 else 0) + sum_nums k (length labels) (count_strings ty (length labels)).
Proof. exact cluster_proof. Qed.
Print Assumptions C24_cluster_basis.
(** An empty list, a negative number or another kind of [k] is rejected. *)
Theorem C24_bad_k : forall k labels ty id, ~ k_valid k -> cluster_basis k labels ty id = Err ValueError.
Proof. exact cluster_bad. Qed.
Print Assumptions C24_bad_k.
Example C24_example : exists b, cluster_basis (KInt 2) [4; 1; 2]%Z Pauli true = Ok b /\ basis_len b = 37 /\
  cluster_basis (KInt 2) [4; 1; 2]%Z Pauli true <> cluster_basis (KList [2%Z]) [4; 1; 2]%Z Pauli true.
Proof.
  eexists. split; [vm_compute; reflexivity|]. split; [vm_compute; reflexivity|].
  intros H. apply (f_equal (fun r => match r with Ok b => basis_len b | Err _ => 0 end)) in H. vm_compute in H. discriminate.
Qed.
Example C24_example_fermion : exists b, cluster_basis (KList [2%Z]) [3; 1; 2]%Z Fermion false = Ok b /\ basis_len b = 33 /\
  nth_error (b_strings b) 0 = Some (mkOS [OCDag; OCDag; OC; OC] [1; 2; 2; 1]%Z Fermion p_one) /\
  In (mkOS [OCDag; OCDag; OC; OC] [1; 3; 1; 2]%Z Fermion p_j) (b_strings b).
Proof.
  eexists. split; [vm_compute; reflexivity|]. split; [vm_compute; reflexivity|]. split; [vm_compute; reflexivity|].
  repeat (try (left; reflexivity); right).
Qed.
(** The labels must be distinct: a repeated label makes strings with a repeated label. *)
Example C24_repeated_label : exists b, cluster_basis (KInt 2) [1; 1]%Z Pauli false = Ok b /\
  In (mkOS [OX; OY] [1; 1]%Z Pauli p_one) (b_strings b).
Proof. eexists. split; [vm_compute; reflexivity|]. repeat (try (left; reflexivity); right). Qed.

(** C26: [distance_basis] lists, exactly once each, the strings whose labels are allowed and
    pairwise in range, whatever the iteration order of Python's sets; also for a restricted
    list of allowed orbitals. *)
Theorem C26_distance_basis : forall pick order ordering within n k ty allowed id,
  (forall R P X, P ++ X <> [] -> In (pick R P X) (P ++ X)) ->
  (forall R P X, Permutation (order R P X) P) ->
  Permutation ordering (seq 0 n) ->
  (forall v, In v allowed -> v < n) -> k_valid k ->
  exists b, distance_basis pick order ordering within n k ty allowed id = Ok b /\ built b /\ NoDup (b_strings b) /\
    forall s, In s (b_strings b) <-> local_string ty k s /\ labelled_within within allowed s.
Proof. exact distance_proof. Qed.
Print Assumptions C26_distance_basis.
(** An open chain of four orbitals with range 1, and with orbital 2 not allowed. *)
Example C26_example : exists b c,
  distance_basis (fun _ P X => hd 0 (P ++ X)) (fun _ P _ => P) [3; 2; 1; 0] (fun i j => j - i <=? 1) 4 (KInt 2) Pauli [0; 1; 2; 3] false = Ok b /\
  basis_len b = 39 /\
  distance_basis (fun _ P X => hd 0 (P ++ X)) (fun _ P _ => P) [3; 2; 1; 0] (fun i j => j - i <=? 1) 4 (KInt 2) Pauli [0; 1; 3] false = Ok c /\
  basis_len c = 18.
Proof. do 2 eexists. split; [vm_compute; reflexivity|]. split; [vm_compute; reflexivity|]. split; vm_compute; reflexivity. Qed.

(** C27 is false: [include_identity=True] never yields the identity. *)
Theorem C27_include_identity_refuted : forall pick order ordering within n k ty allowed,
  (forall R P X, P ++ X <> [] -> In (pick R P X) (P ++ X)) ->
  (forall R P X, Permutation (order R P X) P) ->
  Permutation ordering (seq 0 n) ->
  (forall v, In v allowed -> v < n) -> k_valid k ->
  exists b, distance_basis pick order ordering within n k ty allowed true = Ok b /\ ~ In (identity_string ty) (b_strings b).
Proof. exact distance_identity. Qed.
Print Assumptions C27_include_identity_refuted.
(** The assumptions on the choices left open can be met. *)
Example C27_example :
  (forall R P X : list nat, P ++ X <> [] -> In ((fun _ P X => hd 0 (P ++ X)) R P X) (P ++ X)) /\
  (forall R P X : list nat, Permutation ((fun _ P _ => P) R P X) P) /\ Permutation [3; 2; 1; 0] (seq 0 4) /\ k_valid (KInt 2).
Proof.
  split; [intros R P X H; destruct (P ++ X); [congruence | left; reflexivity]|]. split; [intros; apply Permutation_refl|].
  split; [change [3; 2; 1; 0] with (rev (seq 0 4)); apply Permutation_sym, Permutation_rev | discriminate].
Qed.
