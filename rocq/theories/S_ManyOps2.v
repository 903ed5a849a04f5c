(** Specification of selected_ci_greedy_many_ops2. *)
From Coq Require Import List ZArith Bool Arith Reals.
From Coquelicot Require Import Complex.
From Verif Require Import M_OpString M_Algebra M_Basis M_OpAlg M_LinAlg M_Core S_LinAlg S_Core S_Greedy S_Search.
Import ListNotations.
Local Open Scope nat_scope.

(** [all] are the strings [l] and, for each combination of [oss] in turn, the largest [nH] new
    terms of [A,H], where A are the largest [nH] terms of its commutator with H. *)
Fixpoint grown_all (ty : optype) (H : Operator) (nH : nat) (oss : list (list (C * OS))) (l all : list OS) : Prop :=
  match oss with
  | [] => all = l
  | os :: r => exists t1 a t2 b, commutator_terms ty H os t1 /\ picks nH (fun _ => True) t1 a /\
      commutator_terms ty H a t2 /\ picks nH (fun t => ~ In (snd t) l) t2 b /\ grown_all ty H nH r (l ++ map snd b) all
  end.
Definition same_strings (l m : list OS) : Prop := forall s, In s l <-> In s m.
(** The strings are those of the step before, or of the one before that. *)
Definition repeats (i : nat) (prev : list OS) (prevprev : option (list OS)) (all : list OS) : Prop :=
  i <> 0 /\ (same_strings all prev \/ exists p, prevprev = Some p /\ same_strings all p).

(** The steps from step [i] on; [oss] are the combinations that are grown, [l] their strings.
    After a step all combinations are cut to the same strings: those with the largest
    coefficients in SOME combination [r] of the Operators found; the coefficients left are the
    FIRST ones of each Operator (see C62).  [rec o e] says what the number [e] recorded with [o] is. *)
Fixpoint many2_found (ty : optype) (H : Operator) (rec : COp -> R -> Prop) (nHs : list nat) (thr : R) (size num_steps i : nat) (oss : list (list (C * OS))) (l prev : list OS) (prevprev : option (list OS))
  (ops : list (list COp)) (norms : list (list R)) : Prop :=
  match ops, norms with
  | [], [] => num_steps = i \/ exists nH all, nth_error nHs i = Some nH /\ grown_all ty H nH oss l all /\ repeats i prev prevprev all
  | os :: ops', es :: norms' =>
      i < num_steps /\ length os = length oss /\ exists nH all, nth_error nHs i = Some nH /\ grown_all ty H nH oss l all /\ ~ repeats i prev prevprev all /\
      Forall2 (fun o e => std_cop ty o /\ b_strings (c_basis o) = all /\ real_vec (c_coeffs o) /\ norm2c (c_coeffs o) = 1%R /\ rec o e) os es /\
      orthonormal (map c_coeffs os) /\
      exists r kept, span (length all) (map c_coeffs os) r /\ picks size (fun t => (thr < Cmod (fst t))%R) (combine r all) kept /\
        many2_found ty H rec nHs thr size num_steps (S i) (map (fun o => combine (firstn (length kept) (c_coeffs o)) (map snd kept)) os) (map snd kept) all (Some prev) ops' norms'
  | _, _ => False
  end.

(** The combination [os] of the strings [l] with the coefficients of [o]. *)
Definition rewritten (l : list OS) (o : COp) (os : list (C * OS)) : Prop :=
  map snd os = l /\ forall c s, In (c, s) os -> (forall d, In (d, s) (c_terms o) -> c = d) /\ (~ In s (map snd (c_terms o)) -> c = RtoC 0).
