(** Specifications for generate_lie_algebra of a list of Operators. *)
From Coq Require Import List ZArith Bool Arith Reals.
From Coquelicot Require Import Complex.
From Verif Require Import GC S_Alg M_OpString M_Basis M_Core S_Den S_Basis S_Built S_RScal S_CScal S_Core S_Cumulative.
Import ListNotations.
Local Open Scope alg_scope.

(** [D] is the commutator of [A] and [B], apart from at most |A| |B| terms below 1e-16. *)
Definition is_commutator (ty : optype) (A B D : COp) : Prop :=
  good_cop ty D /\
  exists dropped : list (C * OS), length dropped <= length (c_coeffs A) * length (c_coeffs B) /\
    (forall t, In t dropped -> (Cmod (fst t) < / 10 ^ 16)%R) /\
    forall (X : StarAlg) (S : RScal X) (g : op -> Z -> X), rep ty g ->
      let a := clincomb S g (c_terms A) in let b := clincomb S g (c_terms B) in
      clincomb S g (c_terms D) + clincomb S g dropped == a * b + gm1 · (b * a).

(** The Hilbert-Schmidt norm: the root of the sum of the squared moduli of the coefficients. *)
Definition hs_norm (o : COp) : R := sqrt (norm2c (c_coeffs o)).

(** The coefficients [f] of an operator differ from the ones of a combination of the Operators [l]
    on finitely many strings only, by at most [eps] in the squared distance. *)
Definition near (eps : R) (l : list COp) (f : OS -> C) : Prop :=
  exists v strs, length v = length l /\ distinct_keys strs /\
    (forall s, (forall t, In t strs -> ~ same_key t s) -> f s = combination l v s) /\
    (norm2c (map (fun s => f s - combination l v s)%C strs) <= eps)%R.

(** Every Operator after the first [k] is the normalised commutator, times -i, of two Operators
    before it. *)
Definition by_commutators (ty : optype) (tol : R) (k : nat) (l : list COp) : Prop :=
  forall m o, k <= m -> nth_error l m = Some o ->
    good_cop ty o /\ exists i j A B D, i < m /\ j < m /\ nth_error l i = Some A /\ nth_error l j = Some B /\
      is_commutator ty A B D /\ (tol < hs_norm D)%R /\
      forall s, coefficient o s = (- Ci * coefficient D s / RtoC (hs_norm D))%C.

(** The commutator of any two of the Operators is small, or close to a combination of them after
    the normalisation. *)
Definition closed_up_to (ty : optype) (tol : R) (l : list COp) : Prop :=
  forall i j A B, nth_error l i = Some A -> nth_error l j = Some B ->
    exists D, is_commutator ty A B D /\
      ((hs_norm D <= tol)%R \/ near tol l (fun s => coefficient D s / RtoC (hs_norm D))%C).
(** ... exactly: the commutators are combinations of the Operators. *)
Definition closed_exactly (ty : optype) (l : list COp) : Prop :=
  forall i j A B, nth_error l i = Some A -> nth_error l j = Some B ->
    exists D v, is_commutator ty A B D /\ length v = length l /\ forall s, coefficient D s = combination l v s.
