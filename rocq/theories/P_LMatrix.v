(** C122-C123: [_l_matrix] and [_com_matrix] on a dictionary of structure constants. *)
From Coq Require Import List ZArith Bool Arith Lia.
From Verif Require Import GC Exn S_Alg S_Den S_Basis S_OpAlg M_OpString M_Algebra M_Basis M_OpAlg M_LMatrix S_LMatrix
  L_Alg L_Operator L_OpAlg L_PropOpAlg L_Struct L_Commutant L_LMatrix.
Import ListNotations.
Local Open Scope nat_scope.
Local Open Scope alg_scope.

(** C122.  Let the dictionary hold for each string t of the Operator O the coefficients of the
    commutators [s_a, t] of the strings s_a of a Basis, in terms of the strings U.  Then the columns of
    the result of [_l_matrix] are the coefficients of the commutators [s_a, O]; its shape is at most
    |U| x |Basis|, and the commutators of the strings without a column are zero.  A ValueError is
    raised only if all commutators are zero. *)
Theorem C122_l_matrix : forall (sc : sc_dict) o strs U, sc_fits strs U sc o ->
  (exists L, l_matrix sc o = Ok L /\ sm_rows L <= length U /\ sm_cols L <= length strs /\
     forall (A : StarAlg) (g : op -> Z -> A), sc_right g strs U sc o -> columns_are g strs U o L) \/
  (l_matrix sc o = Err ValueError /\
     forall (A : StarAlg) (g : op -> Z -> A), sc_right g strs U sc o -> forall s, In s strs -> exact MCommutator (den g s) (lincomb g (op_terms o)) == azero).
Proof.
  intros sc o strs U H. destruct (l_matrix_ok sc o strs U H) as [(L & H1 & _ & H2)|H1]; [left; exists L; auto | right; exact H1].
Qed.
Print Assumptions C122_l_matrix.
(** A string of the Operator without an entry raises a KeyError. *)
Theorem C122_missing : forall (sc : sc_dict) o t, In t (op_terms o) -> dget os_key sc (snd t) = None ->
  l_matrix sc o = Err KeyError /\ com_matrix sc o = Err KeyError.
Proof.
  intros sc o t Ht E. assert (K : l_matrix sc o = Err KeyError) by (unfold l_matrix; rewrite l_loop_err; [reflexivity | eauto]).
  split; auto. unfold com_matrix. rewrite K. reflexivity.
Qed.
Print Assumptions C122_missing.
(** [_com_matrix] is the matrix of the inner products of the columns of [_l_matrix]. *)
Theorem C122_com_matrix : forall (sc : sc_dict) o strs U, sc_fits strs U sc o ->
  (exists L D, l_matrix sc o = Ok L /\ com_matrix sc o = Ok D /\ sm_rows D = sm_cols L /\ sm_cols D = sm_cols L /\
     forall i j, sm_entry D i j = fold_right gadd g0 (map (fun k => gmul (gconj (sm_entry L k i)) (sm_entry L k j)) (seq 0 (sm_rows L)))) \/
  (l_matrix sc o = Err ValueError /\ com_matrix sc o = Err ValueError).
Proof.
  intros sc o strs U H. unfold com_matrix. destruct (l_matrix_ok sc o strs U H) as [(L & -> & HI & _)|[-> _]]; [left | right; auto].
  destruct (adj_dot_entries L HI) as (D & H1 & H2 & H3 & H4). exists L, D. auto.
Qed.
Print Assumptions C122_com_matrix.
(** If the strings U are those of a Basis of canonical strings, the null vectors of [_com_matrix] are the
    coefficients of the operators of the first strings that commute with the Operator. *)
Theorem C122_kernel : forall ty (sc : sc_dict) o strs C D v, sc_fits strs (b_strings C) sc o -> canonical_basis ty C ->
  com_matrix sc o = Ok D -> length v = sm_cols D ->
  sm_cols D <= length strs /\
  forall (A : StarAlg) (g : op -> Z -> A), rep ty g -> ~ (@aone A == azero) -> sc_right g strs (b_strings C) sc o ->
    (matvec D v = repeat g0 (sm_cols D) <-> exact MCommutator (lincomb g (combine v strs)) (lincomb g (op_terms o)) == azero).
Proof.
  intros ty sc o strs C D v H HC E Hv. unfold com_matrix in E. destruct (l_matrix_ok sc o strs (b_strings C) H) as [(L & EL & HI & H1 & H2 & HK)|[EL _]]; rewrite EL in E; [|discriminate].
  cbn [rbind] in E. destruct (adj_dot_entries L HI) as (D' & E' & _ & H3 & _). rewrite E in E'. injection E' as <-. rewrite H3 in *.
  split; auto. intros A g Hr Hn HR. apply (kernel_short ty g strs C o L D v); auto.
Qed.
Print Assumptions C122_kernel.

(* ------------------------------------------------------------- examples *)

Definition lm_k : GC := gopp (gmul g2 gi).
Definition lm_op cs ss := mkOperator cs (mkBasis ss (combine ss (seq 0 (length ss)))) Pauli.
(** Z1 + 2 X1, and the commutators [X1, Z1] = -2i Y1, [Z1, X1] = 2i Y1. *)
Definition lm_O := lm_op [g1; g2] [sZ1; sX1].
Definition lm_sc : sc_dict := [(sZ1, ([0], [0], [lm_k])); (sX1, ([0], [1], [gopp lm_k]))].

Lemma pauli_com s t k oc : string_ok Pauli s -> string_ok Pauli t -> operation_opstring MCommutator s t = Ok (k, oc) ->
  forall (A : StarAlg) (g : op -> Z -> A), rep Pauli g -> exact MCommutator (den g s) (den g t) == match oc with Some u => k · den g u | None => azero end.
Proof.
  intros Hs Ht E A g Hr. destruct (mode_spec Pauli MCommutator s t ltac:(discriminate) Hs Ht) as (c & o & R).
  rewrite (mr_run _ _ _ _ _ _ R) in E. injection E as -> ->. apply (mr_den _ _ _ _ _ _ R A g Hr).
Qed.
Lemma lm_right : forall (A : StarAlg) (g : op -> Z -> A), rep Pauli g -> sc_right g [sX1; sZ1] [sY1] lm_sc lm_O.
Proof.
  intros A g Hr t e Ht. destruct Ht as [<-|[<-|[] ] ]; intros E; injection E as <-; intros [|[|[|a] ] ] s Hs; try discriminate; injection Hs as <-; cbn.
  - rewrite aadd_0_r. rewrite (pauli_com sX1 sZ1 lm_k (Some sY1) ok_X1 ok_Z1 eq_refl A g Hr). reflexivity.
  - rewrite aadd_0_r. rewrite (pauli_com sZ1 sZ1 g0 None ok_Z1 ok_Z1 eq_refl A g Hr). reflexivity.
  - rewrite aadd_0_r. rewrite (pauli_com sX1 sX1 g0 None ok_X1 ok_X1 eq_refl A g Hr). reflexivity.
  - rewrite aadd_0_r. rewrite (pauli_com sZ1 sX1 (gopp lm_k) (Some sY1) ok_Z1 ok_X1 eq_refl A g Hr). reflexivity.
Qed.
Lemma lm_fits : sc_fits [sX1; sZ1] [sY1] lm_sc lm_O.
Proof.
  intros t [<-|[<-|[] ] ]; eexists; (split; [reflexivity|]); cbn; (split; [reflexivity|]; split; [reflexivity|]; split; intros x [<-|[] ]; lia).
Qed.
Example C122_example : op_new [g1; g2] [sZ1; sX1] None = Ok lm_O /\ sc_fits [sX1; sZ1] [sY1] lm_sc lm_O /\
  (forall (A : StarAlg) (g : op -> Z -> A), rep Pauli g -> sc_right g [sX1; sZ1] [sY1] lm_sc lm_O) /\
  (exists L, l_matrix lm_sc lm_O = Ok L /\ sm_rows L = 1 /\ sm_cols L = 2 /\ column L 0 = [lm_k] /\ column L 1 = [gmul g2 (gopp lm_k)]) /\
  (exists D, com_matrix lm_sc lm_O = Ok D /\ column D 0 = [gz 4; gz (-8)] /\ column D 1 = [gz (-8); gz 16]) /\
  dget os_key lm_sc sY1 = None /\ In (g1, sY1) (op_terms (lm_op [g1] [sY1])) /\ l_matrix lm_sc (lm_op [g1] [sY1]) = Err KeyError.
Proof.
  split; [reflexivity|]. split; [exact lm_fits|]. split; [exact lm_right|].
  split; [eexists; split; [reflexivity|]; repeat split; vm_compute; reflexivity|].
  split; [eexists; split; [reflexivity|]; repeat split; vm_compute; reflexivity|].
  split; [reflexivity|]. split; [simpl; auto | reflexivity].
Qed.

(** 2 X1 + Z1 commutes with Z1 + 2 X1. *)
Example C122_kernel_example : canonical_basis Pauli (mkBasis [sY1] [(sY1, 0)]) /\
  exists D, com_matrix lm_sc lm_O = Ok D /\ sm_cols D = 2 /\ matvec D [g2; g1] = [g0; g0] /\ matvec D [g1; g1] <> [g0; g0].
Proof.
  split; [split; [apply (good_basis_intro Pauli [sY1]); [reflexivity | intros s [<-|[] ]; apply ok_Y1]|]|].
  - intros s [<-|[] ]. split; [apply ok_Y1|]. split; [repeat constructor | left; reflexivity].
  - eexists. split; [reflexivity|]. split; [reflexivity|]. split; [vm_compute; reflexivity | vm_compute; discriminate].
Qed.

(* ------------------------------------------------------------------ C123 *)

(** C123 would be: for right structure constants there is a result, with one row for each string of
    U and one column for each string of the Basis. *)
Definition full_shape (strs U : list OS) (sc : sc_dict) (o : Operator) : Prop :=
  exists L D, l_matrix sc o = Ok L /\ com_matrix sc o = Ok D /\ sm_rows L = length U /\ sm_cols L = length strs /\ sm_cols D = length strs.
(** Refuted: the shape is inferred from the largest indices.  For the Basis X1, Z1 and the Operator Z1
    the last column, of a string that commutes with the Operator, is missing. *)
Theorem C123_shape_refuted : exists sc o strs U L D, op_new (o_coeffs o) (b_strings (o_basis o)) None = Ok o /\ sc_fits strs U sc o /\
  (forall (A : StarAlg) (g : op -> Z -> A), rep Pauli g -> sc_right g strs U sc o) /\
  l_matrix sc o = Ok L /\ com_matrix sc o = Ok D /\ length strs = 2 /\ sm_cols L = 1 /\ sm_rows D = 1 /\ sm_cols D = 1 /\ ~ full_shape strs U sc o.
Proof.
  exists lm_sc, (lm_op [g1] [sZ1]), [sX1; sZ1], [sY1]. do 2 eexists. split; [reflexivity|].
  split; [intros t [<-|[] ]; apply (lm_fits (g1, sZ1)); simpl; auto|].
  split; [intros A g Hr t e [<-|[] ]; apply (lm_right A g Hr (g1, sZ1)); simpl; auto|].
  do 6 (split; [reflexivity|]). intros (L & D & E & _ & _ & H & _). injection E as <-. discriminate.
Qed.
Print Assumptions C123_shape_refuted.
(** Refuted: there is no result if every string commutes with the Operator. *)
Theorem C123_zero_refuted : exists sc o strs U, op_new (o_coeffs o) (b_strings (o_basis o)) None = Ok o /\ strs <> [] /\ sc_fits strs U sc o /\
  (forall (A : StarAlg) (g : op -> Z -> A), rep Pauli g -> sc_right g strs U sc o) /\
  l_matrix sc o = Err ValueError /\ com_matrix sc o = Err ValueError.
Proof.
  exists [(sZ1, ([], [], []))], (lm_op [g1] [sZ1]), [sZ1; sZ2], []. split; [reflexivity|]. split; [discriminate|].
  split; [intros t [<-|[] ]; eexists; split; [reflexivity|]; cbn; intuition|].
  split; [|split; reflexivity]. intros A g Hr t e [<-|[] ] E. injection E as <-. intros [|[|[|a] ] ] s Hs; try discriminate; injection Hs as <-; cbn.
  - apply (pauli_com sZ1 sZ1 g0 None ok_Z1 ok_Z1 eq_refl A g Hr).
  - apply (pauli_com sZ2 sZ1 g0 None ok_Z2 ok_Z1 eq_refl A g Hr).
Qed.
Print Assumptions C123_zero_refuted.
