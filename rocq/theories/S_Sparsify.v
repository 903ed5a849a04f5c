(** Specification of LU decompositions, sorting by indices and independence. *)
From Coq Require Import List Reals Arith Sorting Permutation.
From Coquelicot Require Import Complex.
From Verif Require Import S_LinAlg.
Import ListNotations.

(** No vector is a combination of the ones before it. *)
Definition independent (n : nat) (vs : list (list C)) : Prop :=
  forall l1 v l2, vs = l1 ++ v :: l2 -> ~ span n l1 v.
(** The columns [L] of P L in V = P L U: L is lower triangular with ones on the diagonal, up to the
    order of its rows, and column j of V is a combination of the columns 0..j of P L. *)
Definition lu_columns (n : nat) (V L : list (list C)) : Prop :=
  length L = Nat.min n (length V) /\ vectors n L /\
  (forall j c, nth_error L j = Some c -> exists r, nth r c (RtoC 0) = RtoC 1 /\
     forall i d, j < i -> nth_error L i = Some d -> nth r d (RtoC 0) = RtoC 0) /\
  (forall j v, nth_error V j = Some v -> span n (firstn (S j) L) v).
(** [p] sorts the numbers [l]. *)
Definition sorts (l p : list nat) : Prop :=
  Permutation (seq 0 (length l)) p /\ StronglySorted le (map (fun i => nth i l 0) p).
(** The number of entries of modulus above [tol]. *)
Definition weight (tol : R) (v : list C) : nat :=
  fold_right (fun z k => if Rlt_dec tol (Cmod z) then S k else k) 0 v.
