(** Specifications for the caching exploration and the truncations. *)
From Coq Require Import String List ZArith Bool Arith Permutation QArith Qcanon.
From Verif Require Import GC Exn S_Alg S_Den S_Basis S_Built S_OpAlg M_OpString M_Algebra M_Basis M_OpAlg M_Explore.
Import ListNotations.
Local Open Scope alg_scope.

(** Strings whose prefactors have their usual printed text, so that equal keys are equal strings. *)
Definition std_basis (ty : optype) (b : Basis) : Prop := good_basis ty b /\ forall s, In s (b_strings b) -> std s.
Definition std_op (ty : optype) (o : Operator) : Prop := good_op ty o /\ forall s, In s (b_strings (o_basis o)) -> std s.

(** Caches reached from the empty one by explorations with one Operator. *)
Inductive explored (ty : optype) (H : Operator) : cache -> Prop :=
| explored_none : explored ty H cache_empty
| explored_step st b allowed L ext st' : explored ty H st -> std_basis ty b ->
    explore b H st allowed = Ok (L, ext, st') -> explored ty H st'.

(** The terms of the Operator with a label among [allowed]. *)
Definition terms_near (allowed : option (list Z)) (o : Operator) : list (GC * OS) :=
  filter (fun t => match allowed with
                   | None => true
                   | Some ls => existsb (fun l => if in_dec Z.eq_dec l ls then true else false) (os_labels (snd t))
                   end) (op_terms o).

(** [perm] sorts the moduli of [vec] in ascending order. *)
Definition sorts (vec : list GC) (perm : list nat) : Prop :=
  Permutation perm (seq 0 (length vec)) /\
  forall p q i j x y, (p < q)%nat -> nth_error perm p = Some i -> nth_error perm q = Some j ->
    nth_error vec i = Some x -> nth_error vec j = Some y -> (norm2 x <= norm2 y)%Qc.

(** |c| > thr, for thr >= 0. *)
Definition large (thr : Qc) (c : GC) : Prop := (thr * thr < norm2 c)%Qc.
Definition largeb (thr : Qc) (c : GC) : bool := if Qclt_le_dec (thr * thr) (norm2 c) then true else false.
