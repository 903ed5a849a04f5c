(** Specifications for entropies of states of [n] spins. *)
From Coq Require Import List ZArith NArith Reals Qreals Qcanon.
From Verif Require Import GC M_OpAlg S_Diag S_CFock.
Import ListNotations.
Local Open Scope nat_scope.

Definition normalised (n : nat) (v : list GC) : Prop := sum_confs n (fun c => gmul (amplitude v c) (gconj (amplitude v c))) = g1.
(** The state is the product of a state of the spins [A] and a state of the other spins. *)
Definition product_state (n : nat) (A : list nat) (v : list GC) : Prop :=
  exists x y : N -> GC, forall c, configuration n c -> amplitude v c = gmul (x (pick n A c)) (y (pick n (rest n A) c)).
(** [M] has the eigenvalues [p] with the orthonormal eigenvectors [u]. *)
Definition spectral (k r : nat) (M : N -> N -> GC) (p : nat -> Qc) (u : nat -> N -> GC) : Prop :=
  (forall i j, i < r -> j < r -> sum_confs k (fun a => gmul (gconj (u i a)) (u j a)) = if Nat.eqb i j then g1 else g0) /\
  mat_eq k M (fun a b => gsum (map (fun i => gmul (gq (p i)) (gmul (u i a) (gconj (u i b)))) (seq 0 r))).
(** Sum of a list of real numbers. *)
Definition rtotal (l : list R) : R := fold_right Rplus 0%R l.
