(** Specifications for selected_ci_greedy. *)
From Coq Require Import List ZArith Bool Arith Permutation Reals Qcanon.
From Coquelicot Require Import Complex.
From Verif Require Import GC Exn S_Alg M_OpString M_Algebra M_Basis M_OpAlg M_LinAlg M_Core S_Den S_Basis S_Built S_OpAlg S_Explore S_RScal S_CScal S_LinAlg S_Core.
Import ListNotations.
Local Open Scope alg_scope.

Definition real_vec (v : list C) : Prop := forall z, In z v -> snd z = 0%R.
(** Real symmetric matrices, given by their rows. *)
Definition real_symmetric (D : list (list C)) : Prop :=
  (forall r, In r D -> length r = length D /\ real_vec r) /\
  forall i j, nth j (nth i D []) (RtoC 0) = nth i (nth j D []) (RtoC 0).
(** A solver that returns real normalised eigenvectors of real symmetric matrices. *)
Definition real_solver (eig : option nat -> list (list C) -> list (R * list C)) : Prop :=
  forall nv D l v, real_symmetric D -> In (l, v) (eig nv D) ->
    length v = length D /\ real_vec v /\ norm2c v = 1%R /\ rows_vec D v = map (Cmult (RtoC l)) v.
(** [l] is not above the smallest eigenvalue. *)
Definition below (D : list (list C)) (l : R) : Prop :=
  forall w, length w = length D -> real_vec w -> (l * norm2c w <= fst (inner w (rows_vec D w)))%R.
(** The full solver returns the smallest eigenvalue first; the other one returns it somewhere. *)
Definition finds_lowest (eig : option nat -> list (list C) -> list (R * list C)) : Prop :=
  forall D, real_symmetric D ->
    (forall l v ps, eig None D = (l, v) :: ps -> below D l) /\
    (forall k, eig (Some k) D <> [] -> exists l v, In (l, v) (eig (Some k) D) /\ below D l).
(** A permutation that sorts real numbers in ascending order. *)
Definition sorts_reals (sort : list R -> list nat) : Prop := forall l,
  Permutation (sort l) (seq 0 (length l)) /\
  forall p q i j x y, (p < q)%nat -> nth_error (sort l) p = Some i -> nth_error (sort l) q = Some j ->
    nth_error l i = Some x -> nth_error l j = Some y -> (x <= y)%R.

(** The commutator of [o] with [H] is a combination of independent strings whose coefficients
    have the squared norm [e]. *)
Definition commutator_norm (ty : optype) (H : Operator) (o : COp) (e : R) : Prop :=
  exists C w, canonical_basis ty C /\ length w = basis_len C /\ norm2c w = e /\
    forall (A : StarAlg) (Sc : RScal A) (g : op -> Z -> A), rep ty g ->
      exact MCommutator (clincomb Sc g (c_terms o)) (lincomb g (op_terms H)) == clincomb Sc g (combine w (b_strings C)).
(** Well-formed Operators with complex coefficients and standard prefactors. *)
Definition std_cop (ty : optype) (o : COp) : Prop := good_cop ty o /\ forall s, In s (b_strings (c_basis o)) -> std s.

(** The best of the recorded operators: the first with the smallest norm, or else the initial one. *)
Definition best_of (init : COp) (ops : list COp) (norms : list R) (best : COp) (bestn : option R) : Prop :=
  match bestn with
  | None => ops = [] /\ best = init
  | Some e => exists i, nth_error ops i = Some best /\ nth_error norms i = Some e /\
      (forall j d, nth_error norms j = Some d -> (e <= d)%R) /\
      (forall j d, (j < i)%nat -> nth_error norms j = Some d -> (e < d)%R)
  end.
