(** Specifications for commuting_operators, invariant_operators and the operator generator. *)
From Coq Require Import List ZArith Bool Arith Reals Qcanon.
From Coquelicot Require Import Complex.
From Verif Require Import GC Exn S_Alg M_OpString M_Algebra M_Basis M_Transform M_LinAlg M_Core S_Den S_Basis S_Built S_OpAlg S_RScal S_CScal S_LinAlg.
Import ListNotations.
Local Open Scope alg_scope.

(** The operation of a mode for Operators. *)
Definition op_mode (gm : gmode) : option mode :=
  match gm with
  | GCommutator => Some MCommutator
  | GAnticommutator => Some MAnticommutator
  | GProduct => Some MProduct
  | _ => None
  end.

(** The sign of a mode for Transformations: invariant or anti-invariant operators. *)
Definition trans_sign (gm : gmode) : option R :=
  match gm with
  | GCommutator | GCommute => Some 1%R
  | GAnticommutator | GAnticommute => Some (-1)%R
  | _ => None
  end.

(** An Operator with complex coefficients made of well-formed strings. *)
Definition good_cop (ty : optype) (o : COp) : Prop :=
  built (c_basis o) /\ length (c_coeffs o) = length (b_strings (c_basis o)) /\ c_type o = ty /\
  forall s, In s (b_strings (c_basis o)) -> string_ok ty s.
(** A Basis or a list of Operators, of type [ty]. *)
Definition good_cbasis (ty : optype) (b : cbasis) : Prop :=
  match b with
  | CBasis b => good_basis ty b
  | COps l => l <> [] /\ forall o, In o l -> good_cop ty o
  end.

(** The operator with coordinates [v]: Σ_a v_a S_a or Σ_a v_a O_a. *)
Definition cden {A : StarAlg} (S : RScal A) (g : op -> Z -> A) (b : cbasis) (v : list C) : A :=
  match b with
  | CBasis b => clincomb S g (combine v (b_strings b))
  | COps l => asum (map (fun p => cs S (fst p) (clincomb S g (c_terms (snd p)))) (combine v l))
  end.

(** Non-zero eigenvectors of a matrix given by its rows. *)
Definition eigenpairs (D : list (list C)) (ps : list (R * list C)) : Prop :=
  forall l v, In (l, v) ps -> length v = length D /\ v <> repeat (RtoC 0) (length D) /\ rows_vec D v = map (Cmult (RtoC l)) v.
(** What a full eigensolver returns: eigenvectors that span the space. *)
Definition full_solution (D : list (list C)) (ps : list (R * list C)) : Prop :=
  eigenpairs D ps /\ forall x, length x = length D -> span (length D) (map snd ps) x.
(** What a solver for the [k] lowest eigenvalues returns: an eigenvector that is not in the span
    of the result does not have a lower eigenvalue. *)
Definition lowest_solution (k : nat) (D : list (list C)) (ps : list (R * list C)) : Prop :=
  eigenpairs D ps /\ length ps = k /\
  forall mu w, length w = length D -> rows_vec D w = map (Cmult (RtoC mu)) w ->
    span (length D) (map snd ps) w \/ forall l v, In (l, v) ps -> (l <= mu)%R.

(** Sum of the squared moduli. *)
Definition norm2c (v : list C) : R := fold_right Rplus 0%R (map (fun z => fst z * fst z + snd z * snd z)%R v).
