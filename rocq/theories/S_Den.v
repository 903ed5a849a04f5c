(** Meaning of operator strings in a *-algebra. *)
From Coq Require Import List ZArith Bool Arith Sorted.
From Verif Require Import GC S_Alg M_OpString.
Import ListNotations.
Local Open Scope alg_scope.

(** The operator denoted by a Pauli or Majorana string, given an interpretation [g] of the
    orbital operators: the prefactor times the product of its operators in order. *)
Definition den {A : StarAlg} (g : op -> Z -> A) (s : OS) : A :=
  pval (os_pref s) · aprod (map (fun p => g (fst p) (snd p)) (combine (os_ops s) (os_labels s))).

(** [g] interprets the orbital operators of type [ty] by operators with the right relations. *)
Definition rep (ty : optype) {A : StarAlg} (g : op -> Z -> A) : Prop :=
  match ty with
  | Pauli => PauliRel A (g OX) (g OY) (g OZ)
  | Majorana => MajoranaRel A (g OA) (g OB) (g OD)
  | Fermion => False
  end.

(** The prefactor value that makes a Majorana string with [n] operators a, b Hermitian. *)
Definition majorana_phase (n : nat) : GC := if Nat.odd (n * (n - 1) / 2) then gi else g1.

(** A well-formed Pauli or Majorana string: as many operators as labels, operators of the
    type, distinct labels (in any order), Hermitian prefactor. *)
Definition string_ok (ty : optype) (s : OS) : Prop :=
  os_type s = ty /\
  length (os_ops s) = length (os_labels s) /\
  (forall o, In o (os_ops s) -> is_op_of ty o = true) /\
  NoDup (os_labels s) /\
  pval (os_pref s) =
    match ty with
    | Majorana => majorana_phase (length (filter is_ab (os_ops s)))
    | _ => g1
    end.

(** Labels strictly increasing, and the prefactor is spelled the default way. *)
Definition canonical (s : OS) : Prop :=
  StronglySorted Z.lt (os_labels s) /\ (os_pref s = p_one \/ os_pref s = p_j).
