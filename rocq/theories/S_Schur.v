(** Specifications for the diagonalization of quadratic Operators. *)
From Coq Require Import List ZArith Reals QArith Qreals Qcanon Setoid Morphisms.
From Verif Require Import GC S_Alg M_OpString S_Quad.
From Verif Require Export S_RScal.
Import ListNotations.
Local Open Scope alg_scope.

Definition rsum (f : Z -> R) (l : list Z) : R := fold_right Rplus 0%R (map f l).
(** Σ_(j<n) v_j x_j *)
Definition combo {A : StarAlg} (S : RScal A) (n : nat) (v : Z -> R) (x : Z -> A) : A :=
  asum (map (fun j => rs S (v j) (x j)) (below n)).

(** The columns of W are orthonormal. *)
Definition orthonormal (n : nat) (W : Z -> Z -> R) : Prop := forall p q, In p (below n) -> In q (below n) ->
  rsum (fun j => (W j p * W j q)%R) (below n) = if (p =? q)%Z then 1%R else 0%R.
(** M = W T W^t *)
Definition decomposes (n : nat) (M : Z -> Z -> GC) (T W : Z -> Z -> R) : Prop := forall j k, In j (below n) -> In k (below n) ->
  Q2R (this (re (M j k))) = rsum (fun p => rsum (fun q => (W j p * T p q * W k q)%R) (below n)) (below n).
(** T consists of 2x2 blocks (0, t; -t, 0) in rows and columns 2k, 2k+1. *)
Definition blocks_aligned (n : nat) (T : Z -> Z -> R) : Prop :=
  (forall p q, In p (below (2 * n)) -> In q (below (2 * n)) -> T p q <> 0%R ->
     exists k, (p = 2 * k /\ q = 2 * k + 1 \/ p = 2 * k + 1 /\ q = 2 * k)%Z) /\
  (forall k, In k (below n) -> T (2 * k + 1)%Z (2 * k)%Z = (- T (2 * k)%Z (2 * k + 1)%Z)%R).

(** The fermion of mode k: half the column 2k plus i times the column 2k+1. *)
Definition mode {A : StarAlg} (S : RScal A) (n : nat) (W : Z -> Z -> R) (m : Z -> A) (k : Z) : A :=
  half · (combo S (2 * n) (fun j => W j (2 * k)%Z) m + gi · combo S (2 * n) (fun j => W j (2 * k + 1)%Z) m).
(** Anticommutation relations of f_0, ..., f_(n-1). *)
Definition fermions {A : StarAlg} (n : nat) (f : Z -> A) : Prop := forall j k, In j (below n) -> In k (below n) ->
  f j * f k + f k * f j == azero /\ f j * (f k)^* + (f k)^* * f j == (if (j =? k)%Z then g1 else g0) · aone.
(** H = Σ_k e_k f_k^* f_k + s for the fermions f_k read off from the columns of W. *)
Definition diagonalizes {A : StarAlg} (S : RScal A) (n : nat) (g : op -> Z -> A) (W : Z -> Z -> R) (e : list R) (s : R) (H : A) : Prop :=
  fermions n (mode S n W (maj g)) /\
  H == asum (map (fun k => rs S (nth (Z.to_nat k) e 0%R) ((mode S n W (maj g) k)^* * mode S n W (maj g) k)) (below n)) + rs S s aone.
