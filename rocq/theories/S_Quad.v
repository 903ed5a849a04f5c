(** Specifications for quadratic Operators. *)
From Coq Require Import List ZArith Bool Arith QArith Qcanon.
From Verif Require Import GC S_Alg S_Den S_Conv M_OpString.
Import ListNotations.
Local Open Scope alg_scope.

(** 0, 1, ..., n-1. *)
Definition below (n : nat) : list Z := map Z.of_nat (seq 0 n).
(** The sum over j, k < n of M_jk x_j y_k. *)
Definition form {A : StarAlg} (n : nat) (M : Z -> Z -> GC) (x y : Z -> A) : A :=
  asum (map (fun j => asum (map (fun k => M j k · (x j * y k)) (below n))) (below n)).

(** The Majorana operators in the order a_0, b_0, a_1, b_1, ... *)
Definition maj {A : StarAlg} (g : op -> Z -> A) (j : Z) : A :=
  if Z.even j then g OA (j / 2)%Z else g OB (j / 2)%Z.
(** Nambu operators c_0, ..., c_(n-1), c^*_0, ..., c^*_(n-1). *)
Definition nambu {A : StarAlg} (n : nat) (c : Z -> A) (j : Z) : A :=
  if (j <? Z.of_nat n)%Z then c j else (c (j - Z.of_nat n)%Z)^*.

(** Quadratic Majorana strings d_l and i m_j m_k with labels below n. *)
Definition quadratic_majorana (n : nat) (s : OS) : Prop :=
  (forall l, In l (os_labels s) -> (0 <= l < Z.of_nat n)%Z) /\
  (os_ops s = [OD] \/ exists o1 o2, os_ops s = [o1; o2] /\ o1 <> OD /\ o2 <> OD).
(** Hopping and pairing strings, with labels below n: c^*_i c_j (i, j arbitrary) and c^*_i c^*_j
    (i, j different).  Their prefactor is 1 or 1j; that of c^*_i c_i is 1. *)
Definition hopping (n : nat) (s : OS) : Prop :=
  exists i j, os_type s = Fermion /\ os_ops s = [OCDag; OC] /\ os_labels s = [i; j] /\
    (0 <= i < Z.of_nat n)%Z /\ (0 <= j < Z.of_nat n)%Z /\
    (pval (os_pref s) = g1 \/ (pval (os_pref s) = gi /\ i <> j)).
Definition pairing (n : nat) (s : OS) : Prop :=
  exists i j, os_type s = Fermion /\ os_ops s = [OCDag; OCDag] /\ os_labels s = [i; j] /\
    (0 <= i < Z.of_nat n)%Z /\ (0 <= j < Z.of_nat n)%Z /\ i <> j /\
    (pval (os_pref s) = g1 \/ pval (os_pref s) = gi).
Definition real (x : GC) : Prop := im x = 0%Qc.
(** The sum of the diagonal entries below n. *)
Definition trace (n : nat) (M : Z -> Z -> GC) : GC := fold_right gadd g0 (map (fun j => M j j) (below n)).

(** Strings of quadratic Fermion Operators. *)
Definition quadratic_fermion (n : nat) (s : OS) : Prop := hopping n s \/ pairing n s.

(** Matrices. *)
Definition antisymmetric (M : Z -> Z -> GC) : Prop := forall j k, M k j = gopp (M j k).
Definition real_entries (M : Z -> Z -> GC) : Prop := forall j k, im (M j k) = 0%Qc.
Definition hermitian (M : Z -> Z -> GC) : Prop := forall j k, M k j = gconj (M j k).
(** Exchanging particles and holes: entries of a matrix of size 2n. *)
Definition ph_symmetric (n : nat) (M : Z -> Z -> GC) : Prop := forall i j,
  (0 <= i < Z.of_nat n)%Z -> (0 <= j < Z.of_nat n)%Z ->
  M (i + Z.of_nat n)%Z (j + Z.of_nat n)%Z = gopp (gconj (M i j)) /\ M (i + Z.of_nat n)%Z j = gopp (gconj (M i (j + Z.of_nat n)%Z)).
