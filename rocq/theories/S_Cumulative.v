(** Specifications for the cumulative mode of the operator generator. *)
From Coq Require Import List ZArith Bool Arith Reals Qcanon.
From Coquelicot Require Import Complex.
From Verif Require Import GC Exn S_Alg M_OpString M_Algebra M_Basis M_Transform M_LinAlg M_Core S_Den S_Basis S_Built S_OpAlg S_RScal S_CScal S_LinAlg S_Core S_Invariant S_Sparsify S_Generate.
Import ListNotations.

(** The coefficient of a string in an Operator and in Σ_a v_a O_a. *)
Definition coefficient (o : COp) (s : OS) : C :=
  fold_right Cplus (RtoC 0) (map (fun t => if os_key (snd t) s then fst t else RtoC 0) (c_terms o)).
Definition combination (l : list COp) (v : list C) (s : OS) : C :=
  fold_right Cplus (RtoC 0) (map (fun p => Cmult (fst p) (coefficient (snd p) s)) (combine v l)).
(** No combination of the Operators vanishes, except the one with zero coefficients. *)
Definition independent_ops (l : list COp) : Prop :=
  forall v, length v = length l -> (forall s, combination l v s = RtoC 0) -> v = repeat (RtoC 0) (length l).
Definition independent_cbasis (b : cbasis) : Prop :=
  match b with CBasis _ => True | COps l => independent_ops l end.

(** What a step starts from: the given basis, or the result of the previous step. *)
Definition current (b : cbasis) (st : cstate) : cbasis :=
  match rev (cu_pout st) with l :: _ => COps l | [] => b end.
(** The eigensolver is exact on the matrices that the cumulative mode gives to it, and no
    coefficient of the vectors that it converts to Operators is non-zero but at most [tol]. *)
Definition exact_cstep (Or : oracles) (b : cbasis) (y : entry_sym) (sp orth : bool) (tol : R) : Prop :=
  forall f, search Or b y tol = Ok f -> exact_pairs tol (f_super f) (combine (f_evals f) (f_evecs f)) /\
    forall vs, c_sparsify Or (cbasis_len b) sp orth (f_ops f) = Ok (Some vs) -> forall v z, In v vs -> In z v -> z = RtoC 0 \/ (tol < Cmod z)%R.
Definition exact_crun (Or : oracles) (b : cbasis) (syms : list entry_sym) (sp orth : bool) (tol : R) : Prop :=
  forall syms' y rest st, syms = syms' ++ y :: rest -> generate_cumulative Or b syms' sp orth tol c_fresh = Ok (Some st) ->
    exact_cstep Or (current b st) y sp orth tol.

Definition is_operator (y : entry_sym) : Prop := match y_sym y with SymOperator _ => True | _ => False end.
