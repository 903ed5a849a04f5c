(** What _ladder_operators should find.  Independent of the model. *)
From Coq Require Import List ZArith Bool Arith Reals.
From Coquelicot Require Import Complex.
From Verif Require Import GC S_Alg M_OpString M_Basis M_LinAlg S_Den S_Basis S_OpAlg S_LinAlg S_Core S_SelectedCI.
Import ListNotations.

(** Commutators of the strings of [b] with those of [o] are strings of [b]. *)
Definition closed_under (ty : optype) (o : Operator) (b : Basis) : Prop := forall s c u,
  In s (b_strings b) -> In c (b_strings (o_basis o)) -> commutes_to ty s c u -> In u (b_strings b).
(** A hermitian matrix of imaginary numbers, by rows. *)
Definition imaginary_hermitian (M : list (list C)) : Prop :=
  (forall r, In r M -> length r = length M) /\
  forall i j, nth j (nth i M []) (RtoC 0) = Cconj (nth i (nth j M []) (RtoC 0)) /\ Re (nth j (nth i M []) (RtoC 0)) = 0%R.
(** An eigensolver that is exact for such matrices, up to the size [n]. *)
Definition exact_hermitian_solver (n : nat) (eigh : list (list C) -> list (R * list C)) : Prop :=
  forall M, (length M <= n)%nat -> imaginary_hermitian M -> full_solution M (eigh M) /\ orthonormal (map snd (eigh M)).
(** A singular value decomposition of the matrix with the rows [M] and [n] columns: the singular
    values, and the right singular vectors. *)
Definition exact_svd (n : nat) (M : list (list C)) (r : list R * list (list C)) : Prop :=
  length (fst r) = Nat.min (length M) n /\ length (snd r) = n /\ (forall v, In v (snd r) -> length v = n) /\ orthonormal (snd r) /\
  forall i v, nth_error (snd r) i = Some v -> (0 <= nth i (fst r) 0)%R /\ forall u, length u = n ->
    inner (rows_vec M u) (rows_vec M v) = (RtoC (nth i (fst r) 0%R * nth i (fst r) 0%R) * inner u v)%C.
(** The first Penrose equation of a pseudo-inverse of a matrix with [n] columns, both by rows. *)
Definition exact_pinv (n : nat) (M P : list (list C)) : Prop :=
  length P = n /\ forall u, length u = n -> rows_vec M (rows_vec P (rows_vec M u)) = rows_vec M u.
