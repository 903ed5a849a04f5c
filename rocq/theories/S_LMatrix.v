(** Specification of dictionaries of structure constants. *)
From Coq Require Import List ZArith Bool Arith.
From Verif Require Import GC Exn S_Alg S_Den S_Basis S_OpAlg M_OpString M_Algebra M_Basis M_OpAlg M_LMatrix.
Import ListNotations.
Local Open Scope nat_scope.
Local Open Scope alg_scope.

(** The lists [(rows, cols, data)] have equal lengths, [rows] are positions in [U] and [cols] positions in [strs]. *)
Definition entry_fits (strs U : list OS) (e : list nat * list nat * list GC) : Prop :=
  let '(rows, cols, data) := e in
  length rows = length cols /\ length cols = length data /\
  (forall r, In r rows -> r < length U) /\ (forall c, In c cols -> c < length strs).
(** They are the structure constants of the string [t]: [s_a, t] is the sum of d U_r over the
    positions k with cols[k] = a, r = rows[k] and d = data[k]. *)
Definition entry_right {A : StarAlg} (g : op -> Z -> A) (strs U : list OS) (t : OS) (e : list nat * list nat * list GC) : Prop :=
  let '(rows, cols, data) := e in
  forall a s, nth_error strs a = Some s ->
    exact MCommutator (den g s) (den g t) ==
    asum (map (fun k => if Nat.eqb (nth k cols 0) a
                        then nth k data g0 · match nth_error U (nth k rows 0) with Some u => den g u | None => azero end
                        else azero) (seq 0 (length data))).
(** The dictionary has fitting entries for every string of the Operator. *)
Definition sc_fits (strs U : list OS) (sc : sc_dict) (o : Operator) : Prop :=
  forall t, In t (op_terms o) -> exists e, dget os_key sc (snd t) = Some e /\ entry_fits strs U e.
Definition sc_right {A : StarAlg} (g : op -> Z -> A) (strs U : list OS) (sc : sc_dict) (o : Operator) : Prop :=
  forall t e, In t (op_terms o) -> dget os_key sc (snd t) = Some e -> entry_right g strs U (snd t) e.
(** The columns of [L] are the commutators [s_a, O]; for columns outside of [L] they are zero. *)
Definition columns_are {A : StarAlg} (g : op -> Z -> A) (strs U : list OS) (o : Operator) (L : smat) : Prop :=
  forall a s, nth_error strs a = Some s ->
    exact MCommutator (den g s) (lincomb g (op_terms o)) == lincomb g (combine (column L a) U) /\
    (sm_cols L <= a -> exact MCommutator (den g s) (lincomb g (op_terms o)) == azero).
