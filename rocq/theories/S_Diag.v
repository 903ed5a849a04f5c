(** Specifications for matrices and state vectors on n spins. *)
From Coq Require Import List ZArith NArith Bool Arith.
From Verif Require Import GC S_Den S_Basis S_Built M_OpString M_Basis M_OpAlg.
Import ListNotations.
Local Open Scope nat_scope.

(** The Pauli matrices; [None] is the identity. *)
Definition pauli2 (o : option op) (x y : bool) : GC :=
  match o with
  | Some OX => if xorb x y then g1 else g0
  | Some OY => if xorb x y then (if y then gopp gi else gi) else g0
  | Some OZ => if xorb x y then g0 else if x then gm1 else g1
  | _ => if xorb x y then g0 else g1
  end.
(** The operator of a string at a label. *)
Definition op_at (s : OS) (l : Z) : option op :=
  match find (fun p => (snd p =? l)%Z) (combine (os_ops s) (os_labels s)) with Some p => Some (fst p) | None => None end.
(** The value of spin [i] (of [n]) in a configuration: spin 0 is the highest bit. *)
Definition spin (n : nat) (conf : N) (i : nat) : bool := N.testbit conf (N.of_nat (n - 1 - i)).
Definition gprod (l : list GC) : GC := fold_right gmul g1 l.
(** The tensor product of matrices, one for each spin. *)
Definition tensor (n : nat) (F : nat -> bool -> bool -> GC) (r c : N) : GC :=
  gprod (map (fun i => F i (spin n r i) (spin n c i)) (seq 0 n)).
Definition string_matrix (n : nat) (s : OS) : N -> N -> GC := tensor n (fun i => pauli2 (op_at s (Z.of_nat i))).

(** Configurations of [n] spins. *)
Definition configuration (n : nat) (c : N) : Prop := (c < 2 ^ N.of_nat n)%N.
Definition all_confs (n : nat) : list N := map N.of_nat (seq 0 (2 ^ n)).
Definition sum_confs (n : nat) (f : N -> GC) : GC := gsum (map f (all_confs n)).
(** Products and sums of matrices. *)
Definition mat_mul (n : nat) (A B : N -> N -> GC) (r c : N) : GC := sum_confs n (fun m => gmul (A r m) (B m c)).
Definition mat_vec (n : nat) (A : N -> N -> GC) (v : N -> GC) (r : N) : GC := sum_confs n (fun c => gmul (A r c) (v c)).
Definition mat_eq (n : nat) (A B : N -> N -> GC) : Prop := forall r c, configuration n r -> configuration n c -> A r c = B r c.
Definition adjoint (A : N -> N -> GC) (r c : N) : GC := gconj (A c r).
Definition trace (n : nat) (A : N -> N -> GC) : GC := sum_confs n (fun c => A c c).
(** Labels of [n] spins. *)
Definition labels_in (n : nat) (s : OS) : Prop := forall l, In l (os_labels s) -> (0 <= l < Z.of_nat n)%Z.
Definition amplitude (v : list GC) (c : N) : GC := nth (N.to_nat c) v g0.

(** The spins at the labels of a list, read in order as a number in base 2. *)
Definition pick (n : nat) (ls : list nat) (c : N) : N := fold_left (fun a l => (2 * a + N.b2n (spin n c l))%N) ls 0%N.
(** The operator on [n] spins that acts as [O] on the spins [A] and as the identity on the spins [B]. *)
Definition embed (n : nat) (A B : list nat) (O : N -> N -> GC) (r c : N) : GC :=
  if (pick n B r =? pick n B c)%N then O (pick n A r) (pick n A c) else g0.
(** <v| M |w>. *)
Definition expectation (n : nat) (v : N -> GC) (M : N -> N -> GC) (w : N -> GC) : GC :=
  sum_confs n (fun r => gmul (gconj (v r)) (mat_vec n M w r)).
(** The string with every label i replaced by the i-th label of a list. *)
Definition placed (ls : list nat) (s : OS) : OS :=
  mkOS (os_ops s) (map (fun l => Z.of_nat (nth (Z.to_nat l) ls 0)) (os_labels s)) (os_type s) (os_pref s).
(** The spins that are not in the list. *)
Definition rest (n : nat) (A : list nat) : list nat := filter (fun l => negb (existsb (Nat.eqb l) A)) (seq 0 n).

(** Operators of Pauli strings on [n] spins, and sorted Pauli strings on [n] spins. *)
Definition on_spins (n : nat) (o : Operator) : Prop := made o /\ forall s, In s (b_strings (o_basis o)) -> string_ok Pauli s /\ std s /\ labels_in n s.
Definition sorted_spins (n : nat) (s : OS) : Prop := string_ok Pauli s /\ canonical s /\ labels_in n s.
(** The identity matrix. *)
Definition id_mat (a b : N) : GC := if (a =? b)%N then g1 else g0.
