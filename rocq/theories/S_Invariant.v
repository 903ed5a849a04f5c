(** Specifications for invariant_operators. *)
From Coq Require Import List ZArith Bool Arith Reals Qcanon.
From Coquelicot Require Import Complex.
From Verif Require Import GC Exn S_Alg M_OpString M_Algebra M_Basis M_Transform M_LinAlg M_Core S_Den S_Basis S_Built S_OpAlg S_Transform S_RScal S_CScal S_LinAlg S_Core.
Import ListNotations.
Local Open Scope alg_scope.

(** The strings of a Basis, or of the Operators of a list. *)
Definition cbasis_strings (b : cbasis) : list OS :=
  match b with
  | CBasis b => b_strings b
  | COps l => concat (map (fun o => b_strings (c_basis o)) l)
  end.
(** T(S), and T(Σ_a v_a S_a) := Σ_a v_a T(S_a), which is how a Transformation is applied to an
    Operator (transformation.py:60-92). *)
Definition timage {A : StarAlg} (g : op -> Z -> A) (T : rule) (s : OS) : A :=
  match T s with Ok o => lincomb g (op_terms o) | Err _ => azero end.
Definition cimage {A : StarAlg} (S : RScal A) (g : op -> Z -> A) (T : rule) (b : cbasis) (v : list C) : A :=
  match b with
  | CBasis b => asum (map (fun p => cs S (fst p) (timage g T (snd p))) (combine v (b_strings b)))
  | COps l => asum (map (fun p => cs S (fst p) (asum (map (fun t => cs S (fst t) (timage g T (snd t))) (c_terms (snd p))))) (combine v l))
  end.

(** Each string becomes a well-formed string times 1 or -1, different ones different strings. *)
Definition signed_permutation (ty : optype) (T : rule) (l : list OS) : Prop :=
  monomial_on T l /\ forall s k t, In s l -> one_term (T s) k t -> string_ok ty t /\ canonical t.

(** Σ conj(c) d over the common strings of two Operators. *)
Definition cop_inner (o p : COp) : C :=
  fold_right Cplus (RtoC 0) (map (fun t => fold_right Cplus (RtoC 0) (map (fun u => if os_key (snd t) (snd u) then Cmult (Cconj (fst t)) (fst u) else RtoC 0) (c_terms p))) (c_terms o)).
Definition orthonormal_ops (l : list COp) : Prop :=
  forall i j o p, nth_error l i = Some o -> nth_error l j = Some p -> cop_inner o p = if Nat.eqb i j then RtoC 1 else RtoC 0.
(** A Basis, or a list of orthonormal Operators. *)
Definition orthonormal_cbasis (b : cbasis) : Prop :=
  match b with CBasis _ => True | COps l => orthonormal_ops l end.

(** The pseudo-inverse P of the matrix with columns [K]: K P x is the orthogonal projection of x. *)
Definition least_squares (n : nat) (K P : list (list C)) : Prop :=
  forall x, length x = n -> length (rows_vec P x) = length K /\
    forall c, In c K -> inner c x = inner c (mat_vec n K (rows_vec P x)).

(** What a solver for the [k] eigenvalues closest to [sigma] returns. *)
Definition closest_solution (sigma : R) (k : nat) (D : list (list C)) (ps : list (R * list C)) : Prop :=
  eigenpairs D ps /\ length ps = k /\
  forall mu w, length w = length D -> rows_vec D w = map (Cmult (RtoC mu)) w ->
    span (length D) (map snd ps) w \/ forall l v, In (l, v) ps -> (Rabs (l - sigma) <= Rabs (mu - sigma))%R.

(** Different well-formed strings. *)
Definition canonical_strings (ty : optype) (l : list OS) : Prop :=
  NoDup l /\ forall s, In s l -> string_ok ty s /\ canonical s.

(** What C83 assumes of the arguments of invariant_operators: well-formed strings of
    one type, a list of Operators is orthonormal, the transformation maps strings to different
    strings up to a sign, and [pinv] is the pseudo-inverse (for orthonormal columns). *)
Definition invariant_setting (ty : optype) (pinv : list (list C) -> list (list C)) (basis : cbasis) (T : rule) : Prop :=
  good_cbasis ty basis /\ (forall s, In s (cbasis_strings basis) -> canonical s) /\ orthonormal_cbasis basis /\
  keeps_type ty T /\ signed_permutation ty T (cbasis_strings basis) /\
  (forall n K, (forall k, In k K -> length k = n) -> orthonormal K -> least_squares n K (pinv K)).
