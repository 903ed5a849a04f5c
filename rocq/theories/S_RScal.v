(** *-algebras with real scalars. *)
From Coq Require Import List ZArith Bool Setoid Morphisms Reals QArith Qreals Qcanon.
From Verif Require Import GC S_Alg.
Local Open Scope alg_scope.

(** Real scalars on a *-algebra, extending the rational ones. *)
Record RScal (A : StarAlg) : Type := mkRScal {
  rs : R -> A -> A;
  rs_proper : forall r, Proper (aeq ==> aeq) (rs r);
  rs_rational : forall q x, rs (Q2R (this q)) x == gq q · x;
  rs_rs : forall r s x, rs r (rs s x) == rs (r * s)%R x;
  rs_add_l : forall r s x, rs (r + s)%R x == rs r x + rs s x;
  rs_add_r : forall r x y, rs r (x + y) == rs r x + rs r y;
  rs_mul_l : forall r x y, rs r x * y == rs r (x * y);
  rs_mul_r : forall r x y, x * rs r y == rs r (x * y);
  rs_star : forall r x, (rs r x)^* == rs r (x^*)
}.
Arguments rs {A} _ _ _.
#[export] Existing Instance rs_proper.
