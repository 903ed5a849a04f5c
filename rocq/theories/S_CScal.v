(** Operators with complex coefficients, in a *-algebra with real scalars. *)
From Coq Require Import List ZArith Bool Setoid Morphisms Reals Qcanon.
From Coquelicot Require Import Complex.
From Verif Require Import GC Exn S_Alg M_OpString M_Basis S_Den S_Basis S_RScal.
Import ListNotations.
Local Open Scope alg_scope.

(** Multiplication by the complex number a + i b. *)
Definition cs {A : StarAlg} (S : RScal A) (z : C) (x : A) : A := rs S (fst z) x + gi · rs S (snd z) x.
(** Σ_a v_a S_a *)
Definition clincomb {A : StarAlg} (S : RScal A) (g : op -> Z -> A) (ts : list (C * OS)) : A :=
  asum (map (fun t => cs S (fst t) (den g (snd t))) ts).
(** Σ_a v_a O_a *)
Definition cop_sum {A : StarAlg} (S : RScal A) (g : op -> Z -> A) (v : list C) (ops : list Operator) : A :=
  asum (map (fun p => cs S (fst p) (lincomb g (op_terms (snd p)))) (combine v ops)).
