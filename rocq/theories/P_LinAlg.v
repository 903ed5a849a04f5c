(** Properties C37 and C68: Gram-Schmidt and the intersection of subspaces. *)
From Coq Require Import List Reals Arith Lia Lra.
From Coquelicot Require Import Complex.
From Verif Require Import Exn M_LinAlg S_LinAlg L_LinAlg L_Inter.
Import ListNotations.
Local Open Scope C_scope.

(** C37: the result is orthonormal and inside the column span; every column is within [tol]
    of the span of the result, so for [tol] = 0 the spans agree. *)
Theorem C37_gram_schmidt : forall n tol c rest,
  (0 <= tol)%R -> (0 < n)%nat -> vectors n (c :: rest) -> c <> repeat (RtoC 0) n ->
  exists qs, gram_schmidt n tol (c :: rest) = Some qs /\ vectors n qs /\ orthonormal qs /\
    (forall v, span n qs v -> span n (c :: rest) v) /\
    (forall v, In v (c :: rest) -> exists s r, span n qs s /\ v = vadd r s /\ (vnorm r <= tol)%R) /\
    (tol = 0%R -> forall v, span n (c :: rest) v -> span n qs v).
Proof. exact gram_schmidt_proof. Qed.
Print Assumptions C37_gram_schmidt.
(** The hypotheses hold for two dependent columns and a third one. *)
Example C37_example :
  vectors 2 [[RtoC 3; RtoC 4]; [RtoC 6; RtoC 8]; [RtoC 0; RtoC 1]] /\ [RtoC 3; RtoC 4] <> repeat (RtoC 0) 2.
Proof.
  split.
  - intros v [<-|[<-|[<-|[]]]]; reflexivity.
  - intros H. apply (f_equal (fun l => hd (RtoC 0) l)) in H. apply RtoC_inj in H. lra.
Qed.
(** C37: a zero first column gives not-a-number entries. *)
Theorem C37_zero_first_column_refuted : forall n tol rest, (0 < n)%nat ->
  gram_schmidt n tol (repeat (RtoC 0) n :: rest) = None.
Proof. exact gram_schmidt_zero. Qed.
Print Assumptions C37_zero_first_column_refuted.

(** C68: an orthonormal basis of the intersection, given an orthonormal basis of the kernel
    of the Gram matrix. *)
Theorem C68_intersection : forall eigh n A B,
  vectors n A -> vectors n B -> orthonormal A -> orthonormal B ->
  exact_kernel eigh (gram (hstack_neg A B)) ->
  exists vs, intersection eigh n n A B = Ok (Some vs) /\ vectors n vs /\ orthonormal vs /\
    forall v, span n vs v <-> span n A v /\ span n B v.
Proof. exact intersection_proof. Qed.
Print Assumptions C68_intersection.
(** The hypotheses hold for two equal lines in the plane. *)
Definition exA : list vec := [[RtoC 0; RtoC 1]].
Definition exK : list vec := [[RtoC (/ sqrt 2); RtoC (/ sqrt 2)]].
Example C68_example : vectors 2 exA /\ orthonormal exA /\ exact_kernel (fun _ => exK) (gram (hstack_neg exA exA)).
Proof. exact C68_hyps. Qed.
