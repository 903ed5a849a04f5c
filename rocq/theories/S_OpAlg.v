(** Specifications for the algebra of Operators. *)
From Coq Require Import String List ZArith Bool Arith Sorted QArith Qcanon.
From Verif Require Import GC Exn S_Alg S_Den S_Basis S_Built M_OpString M_Algebra M_Basis M_OpAlg.
Import ListNotations.
Local Open Scope alg_scope.

(** The operation selected by a mode, in an algebra. *)
Definition exact {A : StarAlg} (m : mode) (x y : A) : A :=
  match m with
  | MProduct => x * y
  | MCommutator => asub (x * y) (y * x)
  | MAnticommutator => x * y + y * x
  end.

(** An Operator made of well-formed strings of type [ty]. *)
Definition good_op (ty : optype) (o : Operator) : Prop :=
  made o /\ o_type o = ty /\ forall s, In s (b_strings (o_basis o)) -> string_ok ty s.
(** A Basis made of well-formed strings of type [ty]. *)
Definition good_basis (ty : optype) (b : Basis) : Prop :=
  built b /\ forall s, In s (b_strings b) -> string_ok ty s.
(** ... with sorted labels and default prefactors. *)
Definition canonical_basis (ty : optype) (b : Basis) : Prop :=
  built b /\ forall s, In s (b_strings b) -> string_ok ty s /\ canonical s.

(** A column of a matrix. *)
Definition column (M : smat) (j : nat) : list GC := map (fun i => sm_entry M i j) (seq 0 (sm_rows M)).
(** Matrix times vector. *)
Definition matvec (M : smat) (v : list GC) : list GC :=
  map (fun i => fold_right gadd g0 (map (fun p => gmul (sm_entry M i (fst p)) (snd p)) (combine (seq 0 (sm_cols M)) v)))
      (seq 0 (sm_rows M)).

(** Gaussian integers. *)
Definition gauss_int (z : GC) : Prop := exists a b : Z, z = gadd (gz a) (gmul gi (gz b)).

(** Strings obtained from the members of a list by nested commutators. *)
Inductive nested (l : list OS) : OS -> Prop :=
| nested_in s : In s l -> nested l s
| nested_comm s t k c : nested l s -> nested l t -> commutator s t = Ok (k, Some c) -> nested l c.

(** A dropped term: the contribution of a pair of terms, below 1e-16. *)
Definition dropped_from (m : mode) (ts us : list (GC * OS)) (d : GC * OS) : Prop :=
  exists a S b T k, In (a, S) ts /\ In (b, T) us /\ fst d = gmul (gmul a b) k /\ abs_ltb (fst d) tol16 = true /\
    operation_opstring m S T = Ok (k, Some (snd d)).

(** All strings of the Operator have sorted labels and default prefactors. *)
Definition canonical_op (o : Operator) : Prop := forall s, In s (b_strings (o_basis o)) -> canonical s.

(** No product of two coefficients is non-zero and below 1e-16. *)
Definition no_small (A B : Operator) : Prop :=
  forall a b, In a (o_coeffs A) -> In b (o_coeffs B) -> gmul a b = g0 \/ abs_ltb (gmul a b) tol16 = false.

(** All coefficients are Gaussian integers. *)
Definition int_coeffs (o : Operator) : Prop := forall c, In c (o_coeffs o) -> gauss_int c.

(** The linear combination of Operators with coefficients [v]. *)
Definition op_sum {A : StarAlg} (g : op -> Z -> A) (v : list GC) (ops : list Operator) : A :=
  asum (map (fun p : GC * Operator => fst p · lincomb g (op_terms (snd p))) (combine v ops)).

