(** Specifications for the helper functions: permutations, order, graphs. *)
From Coq Require Import List ZArith Arith Bool Permutation Sorted Relations String Ascii.
From Verif Require Import S_Alg.
Import ListNotations.
Local Open Scope nat_scope.
Local Open Scope list_scope.

(** [p] is a permutation of 0..n-1 in one-line notation. *)
Definition is_perm (n : nat) (p : list nat) : Prop := Permutation p (seq 0 n).

(** Parity of the number of inversions as a sign. *)
Definition inv_sign (l : list Z) : Z := if Nat.odd (inversions l) then (-1)%Z else 1%Z.

(** Undirected simple graph on the nodes below [n]. *)
Definition graph (n : nat) (E : nat -> nat -> Prop) : Prop :=
  (forall u v, E u v -> u < n /\ v < n) /\ (forall u v, E u v -> E v u) /\ (forall v, ~ E v v).
(** A set of nodes (duplicate-free list) that are pairwise adjacent. *)
Definition clique (E : nat -> nat -> Prop) (K : list nat) : Prop :=
  NoDup K /\ forall u v, In u K -> In v K -> u <> v -> E u v.
(** A clique no node can be added to. *)
Definition maximal_clique (n : nat) (E : nat -> nat -> Prop) (K : list nat) : Prop :=
  clique E K /\ (forall v, In v K -> v < n) /\
  forall w, w < n -> (forall v, In v K -> w <> v -> E w v) -> In w K.
Definition same_set (K L : list nat) : Prop := forall v, In v K <-> In v L.
(** Pairwise different as sets. *)
Inductive all_differ : list (list nat) -> Prop :=
| ad_nil : all_differ []
| ad_cons c cs : (forall d, In d cs -> ~ same_set c d) -> all_differ cs -> all_differ (c :: cs).
(** Joined by a path. *)
Definition connected (E : nat -> nat -> Prop) : nat -> nat -> Prop := clos_refl_trans nat E.

(** Simultaneous substitution: scan from the left, take the longest key that matches here,
    continue after the matched text. *)
Local Open Scope string_scope.
Inductive substituted (d : list (string * string)) : string -> string -> Prop :=
| sub_nil : substituted d "" ""
| sub_hit k v s r :
    In (k, v) d ->
    (forall k' v' t, In (k', v') d -> k ++ s = k' ++ t -> String.length k' <= String.length k) ->
    substituted d s r -> substituted d (k ++ s) (v ++ r)
| sub_miss c s r :
    (forall k v t, In (k, v) d -> String c s <> k ++ t) ->
    substituted d s r -> substituted d (String c s) (String c r).

(** Texts made of two names and other characters. *)
Inductive token : Set := TA | TB | TC (c : ascii).
Fixpoint render (a b : string) (ts : list token) : string :=
  match ts with
  | [] => ""
  | TA :: r => a ++ render a b r
  | TB :: r => b ++ render a b r
  | TC c :: r => String c (render a b r)
  end.
Fixpoint char_in (c : ascii) (s : string) : Prop :=
  match s with "" => False | String x r => c = x \/ char_in c r end.
