(** Specification of the bases made by cluster_basis and distance_basis. *)
From Coq Require Import List ZArith Bool Arith Sorted.
From Verif Require Import GC S_Alg S_Den M_OpString M_Cluster.
Import ListNotations.
Local Open Scope nat_scope.

Definition increasing : list Z -> Prop := StronglySorted Z.lt.
(** [b] comes before [f] in the dictionary order, at a position both have. *)
Definition lex_before (b f : list Z) : Prop :=
  exists c x y b' f', (x < y)%Z /\ b = c ++ x :: b' /\ f = c ++ y :: f'.

(** The numbers of operators permitted by [k]. *)
Definition num_ok (k : karg) (m : nat) : Prop :=
  match k with KInt n => (Z.of_nat m <= n)%Z | KList l => In (Z.of_nat m) l | KOther => False end.
(** A usable [k]: a non-negative integer or a non-empty list. *)
Definition k_valid (k : karg) : Prop :=
  match k with KInt n => (0 <= n)%Z | KList l => l <> [] | KOther => False end.

(** Pauli and Majorana strings with increasing labels. *)
Definition spin_string (ty : optype) (k : karg) (s : OS) : Prop :=
  string_ok ty s /\ canonical s /\ os_labels s <> [] /\ num_ok k (length (os_labels s)).
(** Fermion strings: creation labels [f] increasing; type 1 repeats them in reverse, types 2
    and 3 have increasing annihilation labels, not more of them, and before [f] if equally many. *)
Definition fermion_string (k : karg) (s : OS) : Prop :=
  exists f b p, s = mkOS (repeat OCDag (length f) ++ repeat OC (length b)) (f ++ b) Fermion p /\
    increasing f /\ f <> [] /\ num_ok k (length f) /\
    ((p = p_one /\ b = rev f) \/
     ((p = p_one \/ p = p_j) /\ increasing b /\ (length b < length f \/ length b = length f /\ lex_before b f))).
Definition local_string (ty : optype) (k : karg) (s : OS) : Prop :=
  match ty with Fermion => fermion_string k s | _ => spin_string ty k s end.

(** All labels are allowed orbitals, pairwise within range. *)
Definition labelled_within (within : nat -> nat -> bool) (allowed : list nat) (s : OS) : Prop :=
  (forall x, In x (os_labels s) -> exists i, In i allowed /\ x = Z.of_nat i) /\
  (forall i j, In (Z.of_nat i) (os_labels s) -> In (Z.of_nat j) (os_labels s) -> i < j -> within i j = true).

Definition identity_string (ty : optype) : OS := mkOS [] [] ty p_one.

(** Binomial coefficients (Pascal). *)
Fixpoint binom (n m : nat) : nat :=
  match n, m with
  | _, O => 1
  | O, S _ => 0
  | S n', S m' => binom n' m' + binom n' m
  end.
(** Sum of [f m] for [1 <= m <= n] with [m] permitted by [k]. *)
Definition num_okb (k : karg) (m : nat) : bool :=
  match k with
  | KInt n => Z.leb (Z.of_nat m) n
  | KList l => existsb (Z.eqb (Z.of_nat m)) l
  | KOther => false
  end.
Definition sum_nums (k : karg) (n : nat) (f : nat -> nat) : nat :=
  list_sum (map (fun m => if num_okb k m then f m else 0) (seq 1 n)).
(** Number of strings with [m] (creation) operators on [n] orbitals. *)
Definition count_strings (ty : optype) (n m : nat) : nat :=
  match ty with
  | Fermion => binom n m * (2 * list_sum (map (binom n) (seq 0 m)) + binom n m)
  | _ => binom n m * 3 ^ m
  end.
