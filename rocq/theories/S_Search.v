(** Specification of the search of selected_ci_greedy: which strings it adds and drops, and when
    it stops. *)
From Coq Require Import List ZArith Bool Arith Sorted Reals Qcanon.
From Coquelicot Require Import Complex.
From Verif Require Import GC Exn S_Alg M_OpString M_Algebra M_Basis M_OpAlg M_LinAlg M_Core S_Den S_Basis S_OpAlg S_RScal S_CScal S_Core.
Import ListNotations.
Local Open Scope alg_scope.

(** [kept] are the [size] terms of [ts] with the largest coefficients among those that satisfy
    [cand], in descending order; all of them if there are not more than [size]. *)
Definition picks (size : nat) (cand : C * OS -> Prop) (ts kept : list (C * OS)) : Prop :=
  exists inds, Forall2 (fun i t => nth_error ts i = Some t) inds kept /\ NoDup inds /\ Forall cand kept /\
    StronglySorted (fun x y => (Cmod (fst y) <= Cmod (fst x))%R) kept /\ (length kept <= size)%nat /\
    forall j t, nth_error ts j = Some t -> cand t -> In j inds \/ (length kept = size /\ Forall (fun k => (Cmod (fst t) <= Cmod (fst k))%R) kept).

(** [ts] are the terms of the commutator of a combination with H, with distinct strings. *)
Definition commutator_terms (ty : optype) (H : Operator) (os ts : list (C * OS)) : Prop :=
  (exists B, canonical_basis ty B /\ map snd ts = b_strings B) /\
  forall (A : StarAlg) (Sc : RScal A) (g : op -> Z -> A), rep ty g ->
    exact MCommutator (clincomb Sc g os) (lincomb g (op_terms H)) == clincomb Sc g ts.

(** The anticommutator of two strings is a nonzero multiple of a third one. *)
Definition anticommutes_to (ty : optype) (s t u : OS) : Prop := string_ok ty u /\ canonical u /\ exists c, c <> g0 /\
  forall (A : StarAlg) (g : op -> Z -> A), rep ty g -> exact MAnticommutator (den g s) (den g t) == c · den g u.

(** [new] are strings of anticommutators of pairs in [ps] that are not in [old]; all of them if
    they are less than [k]. *)
Definition anti_new (ty : optype) (k : nat) (ps : OS -> OS -> Prop) (old new : list OS) : Prop :=
  (length new <= k)%nat /\ (forall u, In u new -> ~ In u old /\ exists s t, ps s t /\ anticommutes_to ty s t u) /\
  ((length new < k)%nat -> forall s t u, ps s t -> anticommutes_to ty s t u -> In u old \/ In u new).

(** Growing the combination [os]: A are the largest [nH] terms of [O,H]; the largest [nH] new
    terms of [A,H] are added; then anticommutators of strings of O, and of strings of O with the
    ones found so. *)
Definition grown (ty : optype) (H : Operator) (nH nO : nat) (os : list (C * OS)) (all : list OS) : Prop :=
  exists t1 a t2 b n1 n2, commutator_terms ty H os t1 /\ picks nH (fun _ => True) t1 a /\
    commutator_terms ty H a t2 /\ picks nH (fun t => ~ In (snd t) (map snd os)) t2 b /\
    let k := Nat.min (length os) nO in let l1 := map snd os ++ map snd b in
    anti_new ty k (fun s t => In s (map snd os) /\ In t (map snd os) /\ s <> t) l1 n1 /\
    anti_new ty k (fun s t => In s (map snd os) /\ In t n1) (l1 ++ n1) n2 /\
    all = l1 ++ n1 ++ n2.

(** The smallest number so far; None is infinity. *)
Definition least_so_far (best : option R) (e : R) : option R := match best with Some b => Some (Rmin e b) | None => Some e end.
Definition gets_worse (best : option R) (e : R) : Prop := match best with Some b => (/ 10 ^ 16 < e - b)%R | None => False end.
(** The number changed by less than the part [m] of the best number. *)
Definition small_change (best : option R) (e m : R) : Prop := match best with Some b => b <> 0%R /\ (Rabs (e - b) / b < m)%R | None => False end.
(** The search stops after the number [e] in step [i]. *)
Definition stops (target minrel : option R) (i : nat) (best : option R) (e : R) : Prop :=
  (exists m, minrel = Some m /\ (1 <= i)%nat /\ (gets_worse best e \/ small_change best e m)) \/
  (exists t b, target = Some t /\ least_so_far best e = Some b /\ (b < t)%R).

(** The search from step [i] on.  [os] is the combination that is grown; after a step it is made
    of the largest [size] coefficients above the threshold and, in the order of these, the FIRST
    coefficients of the vector (see C62). *)
Fixpoint search (ty : optype) (H : Operator) (nHs sizes : list nat) (nO : nat) (target minrel : option R)
  (num_steps i : nat) (os : list (C * OS)) (thr : R) (best : option R) (ops : list COp) (norms : list R) : Prop :=
  match ops, norms with
  | [], [] => num_steps = i
  | o :: ops', e :: norms' =>
      (exists nH, nth_error nHs i = Some nH /\ grown ty H nH nO os (b_strings (c_basis o))) /\
      (ops' = [] /\ norms' = [] /\ (stops target minrel i best e \/ num_steps = S i) \/
       ~ stops target minrel i best e /\ (S i < num_steps)%nat /\
       exists size thr' kept, nth_error sizes i = Some size /\ (gets_worse best e -> thr' = (thr / 2)%R) /\ (~ gets_worse best e -> thr' = thr) /\
         picks size (fun t => (thr' < Cmod (fst t))%R) (c_terms o) kept /\
         search ty H nHs sizes nO target minrel num_steps (S i) (combine (firstn (length kept) (c_coeffs o)) (map snd kept)) thr' (least_so_far best e) ops' norms')
  | _, _ => False
  end.
