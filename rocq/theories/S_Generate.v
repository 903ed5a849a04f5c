(** Specifications for the operator generator. *)
From Coq Require Import List ZArith Bool Arith Reals Qcanon.
From Coquelicot Require Import Complex.
From Verif Require Import GC Exn S_Alg M_OpString M_Algebra M_Basis M_Transform M_LinAlg M_Core S_Den S_Basis S_Built S_OpAlg S_RScal S_CScal S_LinAlg S_Core S_Invariant S_Sparsify.
Import ListNotations.
Local Open Scope alg_scope.

(** The operator with coordinates [v] has the symmetry [y]. *)
Definition satisfies {A : StarAlg} (S : RScal A) (g : op -> Z -> A) (b : cbasis) (y : entry_sym) (v : list C) : Prop :=
  match y_sym y with
  | SymOperator o => match op_mode (y_mode y) with Some m => exact m (cden S g b v) (lincomb g (op_terms o)) == azero | None => False end
  | SymTransformation T => match trans_sign (y_mode y) with Some s => cimage S g T b v == cs S (RtoC s) (cden S g b v) | None => False end
  | SymOther => False
  end.
(** A symmetry for which the search is known to be right. *)
Definition good_sym (ty : optype) (Or : oracles) (b : cbasis) (y : entry_sym) : Prop :=
  match y_sym y with
  | SymOperator o => ty <> Fermion /\ good_op ty o /\ op_mode (y_mode y) <> None
  | SymTransformation T => invariant_setting ty (or_pinv Or) b T /\ exists s, trans_sign (y_mode y) = Some s
  | SymOther => False
  end.

(** An orthonormal basis of eigenvectors of [D], with no eigenvalue strictly between 0 and [tol]. *)
Definition exact_pairs (tol : R) (D : list (list C)) (ps : list (R * list C)) : Prop :=
  full_solution D ps /\ orthonormal (map snd ps) /\ forall e, In e (map fst ps) -> (e = 0 \/ tol <= Rabs e)%R.
(** The eigensolver is exact on the matrices that the noncumulative mode gives to it: those of the
    symmetries, those of the intersections of the results for the first symmetries [syms'] with
    the ones for the next symmetry, and the projections of the superoperators. *)
Definition exact_run (Or : oracles) (b : cbasis) (syms : list entry_sym) (tol : R) : Prop :=
  (forall y f, In y syms -> search Or b y tol = Ok f -> exact_pairs tol (f_super f) (combine (f_evals f) (f_evecs f))) /\
  (forall syms' y rest st prev f, syms = syms' ++ y :: rest -> generate_noncumulative Or b syms' false false tol n_fresh = Ok (Some st) ->
     nth_error (n_pout st) (length syms' - 1) = Some prev -> search Or b y tol = Ok f ->
     let D := gram (hstack_neg (f_ops f) prev) in let ps := or_eig Or None D in
     exact_pairs tol10r D ps /\
     forall P, intersection (fun D => keep (fun e => lt_dec (Rabs e) tol10r) (or_eig Or None D)) (cbasis_len b) (cbasis_len b) (f_ops f) prev = Ok (Some P) ->
       let S := project_super P (f_super f) in full_solution S (or_eig Or None S) /\ orthonormal (map snd (or_eig Or None S))).
