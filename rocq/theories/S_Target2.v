(** Specification of the search of selected_ci_greedy with target_operator. *)
From Coq Require Import List ZArith Bool Arith Reals.
From Coquelicot Require Import Complex.
From Verif Require Import M_OpString M_Algebra M_Basis M_OpAlg M_LinAlg M_Core S_LinAlg S_Core S_Greedy S_Fidelity S_Search.
Import ListNotations.
Local Open Scope nat_scope.

(** The squared overlap of [o] with [T]. *)
Definition fidelity (T o : COp) (f : R) : Prop := exists t, coefficients_in T (c_basis o) t /\ overlap2 (c_coeffs o) t = f.
Definition below_target (tf : option R) (f : R) : Prop := exists m, tf = Some m /\ (f < m)%R.
(** [w] is normalised, and no normalised real combination of the same strings has a smaller
    commutator norm. *)
Definition least_commuting (ty : optype) (H : Operator) (l : list OS) (w : list C) : Prop :=
  length w = length l /\ real_vec w /\ norm2c w = 1%R /\
  forall ow q dw d, c_coeffs ow = w -> b_strings (c_basis ow) = l -> b_strings (c_basis q) = l -> length (c_coeffs q) = length l ->
    real_vec (c_coeffs q) -> norm2c (c_coeffs q) = 1%R -> commutator_norm ty H ow dw -> commutator_norm ty H q d -> (dw <= d)%R.
(** The number [e] is smaller than the best one. *)
Definition new_best (best : option R) (e : R) : Prop := match best with Some b => (e < b)%R | None => True end.

(** The search from step [i] on, as [search] in S_Search, but: the recorded Operator [o] is
    compared with the target in step 0 and with the best Operator [bo] later; the search ends if
    the overlap is too small in step 0, and it never is later; and the terms that are kept are
    those with the largest entries of [w], the vector with the smallest commutator norm, NOT
    those with the largest coefficients of [o]. *)
Fixpoint target_search (ty : optype) (H : Operator) (nHs sizes : list nat) (nO : nat) (target minrel : option R) (tgt : COp) (tf : option R)
  (num_steps i : nat) (os : list (C * OS)) (thr : R) (bo : COp) (best : option R) (ops : list COp) (norms : list R) : Prop :=
  match ops, norms with
  | [], [] => num_steps = i
  | o :: ops', e :: norms' =>
      (exists nH, nth_error nHs i = Some nH /\ grown ty H nH nO os (b_strings (c_basis o))) /\
      exists f, fidelity (match i with 0 => tgt | _ => bo end) o f /\ (i <> 0 -> ~ below_target tf f) /\
      (ops' = [] /\ norms' = [] /\ (below_target tf f \/ stops target minrel i best e \/ num_steps = S i) \/
       ~ below_target tf f /\ ~ stops target minrel i best e /\ S i < num_steps /\
       exists size thr' w kept bo', nth_error sizes i = Some size /\ (gets_worse best e -> thr' = (thr / 2)%R) /\ (~ gets_worse best e -> thr' = thr) /\
         (new_best best e -> bo' = o) /\ (~ new_best best e -> bo' = bo) /\
         least_commuting ty H (b_strings (c_basis o)) w /\
         picks size (fun t => (thr' < Cmod (fst t))%R) (combine w (b_strings (c_basis o))) kept /\
         target_search ty H nHs sizes nO target minrel tgt tf num_steps (S i) (combine (firstn (length kept) (c_coeffs o)) (map snd kept)) thr' bo' (least_so_far best e) ops' norms')
  | _, _ => False
  end.
