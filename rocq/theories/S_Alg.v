(** Specification side: *-algebras over the Gaussian rationals, the Pauli and Majorana
    relations, canonical anticommutation relations, and words of generators. *)
From Coq Require Import List ZArith Bool Setoid Morphisms.
From Verif Require Import GC.
Import ListNotations.

(** An associative unital *-algebra over the Gaussian rationals, with its own equality. *)
Record StarAlg : Type := mkStarAlg {
  car :> Type;
  aeq : car -> car -> Prop;
  azero : car;
  aone : car;
  aadd : car -> car -> car;
  amul : car -> car -> car;
  ascal : GC -> car -> car;
  astar : car -> car;
  aeq_equiv : Equivalence aeq;
  aadd_proper : Proper (aeq ==> aeq ==> aeq) aadd;
  amul_proper : Proper (aeq ==> aeq ==> aeq) amul;
  ascal_proper : forall z, Proper (aeq ==> aeq) (ascal z);
  astar_proper : Proper (aeq ==> aeq) astar;
  aadd_comm : forall x y, aeq (aadd x y) (aadd y x);
  aadd_assoc : forall x y z, aeq (aadd x (aadd y z)) (aadd (aadd x y) z);
  aadd_0_l : forall x, aeq (aadd azero x) x;
  amul_assoc : forall x y z, aeq (amul x (amul y z)) (amul (amul x y) z);
  amul_1_l : forall x, aeq (amul aone x) x;
  amul_1_r : forall x, aeq (amul x aone) x;
  amul_add_l : forall x y z, aeq (amul (aadd x y) z) (aadd (amul x z) (amul y z));
  amul_add_r : forall x y z, aeq (amul x (aadd y z)) (aadd (amul x y) (amul x z));
  ascal_0 : forall x, aeq (ascal g0 x) azero;
  ascal_1 : forall x, aeq (ascal g1 x) x;
  ascal_ascal : forall a b x, aeq (ascal a (ascal b x)) (ascal (gmul a b) x);
  ascal_add_l : forall a b x, aeq (ascal (gadd a b) x) (aadd (ascal a x) (ascal b x));
  ascal_add_r : forall a x y, aeq (ascal a (aadd x y)) (aadd (ascal a x) (ascal a y));
  ascal_mul_l : forall a x y, aeq (amul (ascal a x) y) (ascal a (amul x y));
  ascal_mul_r : forall a x y, aeq (amul x (ascal a y)) (ascal a (amul x y));
  astar_star : forall x, aeq (astar (astar x)) x;
  astar_add : forall x y, aeq (astar (aadd x y)) (aadd (astar x) (astar y));
  astar_mul : forall x y, aeq (astar (amul x y)) (amul (astar y) (astar x));
  astar_scal : forall a x, aeq (astar (ascal a x)) (ascal (gconj a) (astar x))
}.

Arguments aeq {s} _ _.
Arguments azero {s}.
Arguments aone {s}.
Arguments aadd {s} _ _.
Arguments amul {s} _ _.
Arguments ascal {s} _ _.
Arguments astar {s} _.

#[export] Existing Instance aeq_equiv.
#[export] Existing Instance aadd_proper.
#[export] Existing Instance amul_proper.
#[export] Existing Instance ascal_proper.
#[export] Existing Instance astar_proper.

Declare Scope alg_scope.
Delimit Scope alg_scope with alg.
Infix "==" := aeq (at level 70, no associativity) : alg_scope.
Infix "+" := aadd : alg_scope.
Infix "*" := amul : alg_scope.
Infix "·" := ascal (at level 38, right associativity) : alg_scope.
Notation "x ^*" := (astar x) (at level 1, format "x ^*") : alg_scope.
Local Open Scope alg_scope.

(** Difference. *)
Definition asub {A : StarAlg} (x y : A) : A := x + gm1 · y.

(** Pauli matrices sx_l, sy_l, sz_l on sites labelled by integers: Hermitian, squaring to
    one, sx sy = i sz on each site, commuting between different sites. *)
Record PauliRel (A : StarAlg) (sx sy sz : Z -> A) : Prop := {
  px_star : forall l, (sx l)^* == sx l;
  py_star : forall l, (sy l)^* == sy l;
  pz_star : forall l, (sz l)^* == sz l;
  px_sq : forall l, sx l * sx l == aone;
  py_sq : forall l, sy l * sy l == aone;
  pz_sq : forall l, sz l * sz l == aone;
  pxy : forall l, sx l * sy l == gi · sz l;
  p_comm : forall l m, l <> m ->
     forall u v, In u [sx l; sy l; sz l] -> In v [sx m; sy m; sz m] -> u * v == v * u
}.

(** Majorana operators a_l, b_l (Hermitian, squaring to one, all anticommuting) and
    d_l = -i a_l b_l. *)
Record MajoranaRel (A : StarAlg) (ma mb md : Z -> A) : Prop := {
  ma_star : forall l, (ma l)^* == ma l;
  mb_star : forall l, (mb l)^* == mb l;
  ma_sq : forall l, ma l * ma l == aone;
  mb_sq : forall l, mb l * mb l == aone;
  ma_anti : forall l m, l <> m -> ma l * ma m == gm1 · (ma m * ma l);
  mb_anti : forall l m, l <> m -> mb l * mb m == gm1 · (mb m * mb l);
  mab_anti : forall l m, ma l * mb m == gm1 · (mb m * ma l);
  md_def : forall l, md l == (gopp gi) · (ma l * mb l)
}.

(** Fermion annihilation operators with the canonical anticommutation relations; the
    creation operators are their adjoints. *)
Record CAR (A : StarAlg) (c : Z -> A) : Prop := {
  c_anti : forall l m, c l * c m == gm1 · (c m * c l);
  c_cdag_same : forall l, c l * (c l)^* + (c l)^* * c l == aone;
  c_cdag_diff : forall l m, l <> m -> c l * (c m)^* == gm1 · ((c m)^* * c l)
}.

(** Product of a list of algebra elements, in order. *)
Definition aprod {A : StarAlg} (l : list A) : A := fold_right amul aone l.
(** Sum of a list of algebra elements. *)
Definition asum {A : StarAlg} (l : list A) : A := fold_right aadd azero l.

(** Number of inversions of a list of integers: pairs i < j with l_i > l_j. *)
Fixpoint inversions (l : list Z) : nat :=
  match l with
  | [] => 0
  | x :: r => (length (filter (fun y => Z.ltb y x) r) + inversions r)%nat
  end.
