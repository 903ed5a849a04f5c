(** Specifications for bases and Operators. *)
From Coq Require Import String List ZArith Bool Arith Sorted.
From Verif Require Import GC S_Alg S_Den M_OpString.
Import ListNotations.
Local Open Scope alg_scope.

(** Two strings are the same dictionary key: same name, operators, labels and type. *)
Definition same_key (s t : OS) : Prop :=
  os_name s = os_name t /\ os_ops s = os_ops t /\ os_labels s = os_labels t /\ os_type s = os_type t.

(** No two positions of a list hold the same key. *)
Definition distinct_keys (l : list OS) : Prop :=
  forall i j s t, nth_error l i = Some s -> nth_error l j = Some t -> same_key s t -> i = j.

(** Prefactors with the texts Python prints for 1.0, 1j, complex(1) and 1: here the printed
    text determines the number, so equal keys are equal strings. *)
Definition std_pref (p : pref) : Prop := In p [p_one; p_j; p_cplx1; mkPref g1 "1"].
Definition std (s : OS) : Prop := std_pref (os_pref s).

(** Append to [l] the elements of [m] whose key is not yet present, in order. *)
Inductive append_new : list OS -> list OS -> list OS -> Prop :=
| an_nil l : append_new l [] l
| an_skip l s m r : (exists t, In t l /\ same_key t s) -> append_new l m r -> append_new l (s :: m) r
| an_take l s m r : ~ (exists t, In t l /\ same_key t s) -> append_new (l ++ [s]) m r -> append_new l (s :: m) r.

(** The operator denoted by a list of terms. *)
Definition lincomb {A : StarAlg} (g : op -> Z -> A) (ts : list (GC * OS)) : A :=
  asum (map (fun t => fst t · den g (snd t)) ts).

(** [c] is the coefficient of the string [s] in a list of terms. *)
Definition has_coeff (ts : list (GC * OS)) (s : OS) (c : GC) : Prop :=
  (exists t, In (c, t) ts /\ same_key t s) \/
  (c = g0 /\ forall d t, In (d, t) ts -> ~ same_key t s).
