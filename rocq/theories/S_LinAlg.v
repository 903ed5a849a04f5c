(** Specification of orthonormality and spans for lists of complex vectors. *)
From Coq Require Import List Reals Arith.
From Coquelicot Require Import Complex.
From Verif Require Import M_LinAlg.
Import ListNotations.
Local Open Scope C_scope.

(** Inner product of two vectors, by recursion. *)
Fixpoint inner (u v : list C) : C :=
  match u, v with
  | x :: u', y :: v' => Cconj x * y + inner u' v'
  | _, _ => RtoC 0
  end.
Definition vectors (n : nat) (vs : list (list C)) : Prop := forall v, In v vs -> length v = n.
Definition orthonormal (vs : list (list C)) : Prop :=
  (forall v, In v vs -> inner v v = RtoC 1) /\
  (forall i j v w, nth_error vs i = Some v -> nth_error vs j = Some w -> i <> j -> inner v w = RtoC 0).
(** Linear span of vectors of length [n]. *)
Inductive span (n : nat) (vs : list (list C)) : list C -> Prop :=
| span_zero : span n vs (repeat (RtoC 0) n)
| span_add c v w : In v vs -> span n vs w -> span n vs (zip_with Cplus (map (Cmult c) v) w).
(** The oracle: an orthonormal basis of the kernel of [D]. *)
Definition exact_kernel (eigh : list vec -> list vec) (D : list vec) : Prop :=
  let k := length D in
  vectors k (eigh D) /\ orthonormal (eigh D) /\
  (forall e, In e (eigh D) -> rows_vec D e = vzero k) /\
  (forall x, length x = k -> rows_vec D x = vzero k -> span k (eigh D) x).
