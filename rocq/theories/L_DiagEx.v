(** Concrete cases for matrices and state vectors. *)
From Coq Require Import List Arith Lia ZArith NArith Bool Permutation Sorted QArith Qcanon.
From Verif Require Import GC Exn S_Alg S_Den S_Basis S_Built S_Tools M_OpString M_Algebra M_Basis M_OpAlg M_Transform S_Transform L_PropBasis L_Operator M_Diag S_Diag L_Diag1 L_Diag3 L_Diag4 L_Diag5.
Import ListNotations.
Local Open Scope nat_scope.

Definition dXY : OS := mkOS [OX; OY] [0%Z; 1%Z] Pauli p_one.
Definition dZ : OS := mkOS [OZ] [1%Z] Pauli p_one.
Definition dX : OS := mkOS [OX] [0%Z] Pauli p_one.
Definition dXY' : OS := mkOS [OY; OX] [1%Z; 0%Z] Pauli p_one.
Ltac s_ok := split; [reflexivity|]; split; [reflexivity|]; split; [intros o Ho; cbn in Ho; intuition (subst; reflexivity)|]; split; [cbn [os_labels dXY dZ dX dXY']; repeat constructor; cbn; intuition discriminate | reflexivity].
Ltac l_in := intros l Hl; cbn in Hl; lia.
Ltac gceq := apply GC_ext; apply Qc_is_canon; vm_compute; reflexivity.
Lemma dXY_ok : string_ok Pauli dXY. Proof. s_ok. Qed.
Lemma dZ_ok : string_ok Pauli dZ. Proof. s_ok. Qed.
Lemma dX_ok : string_ok Pauli dX. Proof. s_ok. Qed.
Lemma dXY'_ok : string_ok Pauli dXY'. Proof. s_ok. Qed.
Lemma d_sorted s : In s [dXY; dZ; dX] -> sorted_spins 2 s.
Proof.
  intros [<-|[<-|[<-|[]]]]; (split; [auto using dXY_ok, dZ_ok, dX_ok | split; [split; [|left; reflexivity] | l_in]]); repeat constructor.
Qed.
Lemma dXY_matrix : string_ok Pauli dXY /\ labels_in 2 dXY /\ exists M, to_matrix (MString dXY) 2 = Ok M /\
  entry M 3 0 = gi /\ entry M 2 1 = gopp gi /\ entry M 1 2 = gi /\ entry M 0 3 = gopp gi /\ entry M 1 1 = g0.
Proof.
  split; [apply dXY_ok|]. split; [l_in|]. eexists. split; [reflexivity|]. repeat split; gceq.
Qed.
Lemma d_on o l : made o -> b_strings (o_basis o) = l -> (forall s, In s l -> In s [dXY; dZ; dX]) -> on_spins 2 o.
Proof.
  intros H E K. split; auto. rewrite E. intros s Hs. destruct (d_sorted s (K s Hs)) as (H1 & (_ & H2) & H3). split; auto. split; auto.
  assert (os_pref s = p_one) as Ep by (destruct (K s Hs) as [<-|[<-|[<-|[]]]]; reflexivity). unfold std, std_pref. rewrite Ep. left; reflexivity.
Qed.
Lemma d_operators : exists o p r, op_new [g2; gi] [dXY; dZ] None = Ok o /\ op_new [g1] [dZ] None = Ok p /\ op_add o p = Ok r /\ on_spins 2 o /\ on_spins 2 p.
Proof.
  do 3 eexists. split; [reflexivity|]. split; [reflexivity|]. split; [reflexivity|]. split.
  - apply (d_on _ [dXY; dZ]); [exists [g2; gi], [dXY; dZ], None; split; reflexivity | reflexivity | cbn; tauto].
  - apply (d_on _ [dZ]); [exists [g1], [dZ], None; split; reflexivity | reflexivity | cbn; tauto].
Qed.
Lemma Ok_eq {T} (a b : T) : a = b -> Ok a = Ok b. Proof. congruence. Qed.
Ltac gclist := apply Ok_eq; repeat (apply f_equal2; [gceq|]); reflexivity.
Lemma d_vector : exists o b M, op_new [g2; gi] [dXY; dZ] None = Ok o /\ basis_new [dZ; dX; dXY] = Ok b /\ made o /\
  (forall s, In s (b_strings (o_basis o)) -> sorted_spins 2 s) /\ (forall s, In s (b_strings b) -> sorted_spins 2 s) /\
  to_matrix (MOperator o) 2 = Ok M /\ to_vector M b 2 = Ok [gi; g0; g2].
Proof.
  do 3 eexists. split; [reflexivity|]. split; [reflexivity|]. split; [exists [g2; gi], [dXY; dZ], None; split; reflexivity|].
  split; [intros s Hs; apply d_sorted; cbn in *; tauto|]. split; [intros s Hs; apply d_sorted; cbn in *; tauto|]. split; [reflexivity|].
  gclist.
Qed.
Lemma unsorted_vector : exists o b M v, made o /\ built b /\ (forall s, In s (b_strings (o_basis o)) -> string_ok Pauli s /\ labels_in 2 s) /\
  (forall s, In s (b_strings b) -> string_ok Pauli s /\ labels_in 2 s) /\ to_matrix (MOperator o) 2 = Ok M /\ to_vector M b 2 = Ok v /\
  exists s c, nth_error (b_strings b) 0 = Some s /\ nth_error v 0 = Some c /\ ~ has_coeff (op_terms o) s c.
Proof.
  assert (exists o, op_new [g1] [dXY'] None = Ok o) as (o & Eo) by (eexists; reflexivity).
  assert (exists b, basis_new [dXY] = Ok b) as (b & Eb) by (eexists; reflexivity).
  assert (exists M, to_matrix (MOperator o) 2 = Ok M /\ to_vector M b 2 = Ok [g1]) as (M & EM & Ev).
  { injection Eo as <-. injection Eb as <-. eexists. split; [reflexivity|]. gclist. }
  exists o, b, M, [g1]. split; [exists [g1], [dXY'], None; split; auto|]. split; [eapply built_new; eauto|].
  injection Eo as <-. injection Eb as <-.
  split; [intros s Hs; cbn in Hs; destruct Hs as [<-|[]]; split; [apply dXY'_ok | l_in]|].
  split; [intros s Hs; cbn in Hs; destruct Hs as [<-|[]]; split; [apply dXY_ok | l_in]|]. split; auto. split; auto.
  exists dXY, g1. split; [reflexivity|]. split; [reflexivity|]. intros [(t & Hin & K)|[E _]]; [|discriminate].
  cbn in Hin. destruct Hin as [Hin|[]]. injection Hin as <-. destruct K as (_ & K & _). discriminate.
Qed.
Lemma no_roundtrip : exists o M b, made o /\ built b /\ op_new [g2; gi] [dXY; dZ] None = Ok o /\ o_basis o = b /\ to_matrix (MOperator o) 2 = Ok M /\
  to_operator M b 2 <> Ok o.
Proof.
  assert (exists b, basis_new [dXY; dZ] = Ok b) as (b & Eb) by (eexists; reflexivity).
  eexists. eexists. exists b. split; [exists [g2; gi], [dXY; dZ], None; split; reflexivity|]. split; [eapply built_new; eauto|].
  injection Eb as <-. split; [reflexivity|]. split; [reflexivity|]. split; [reflexivity|]. discriminate.
Qed.
Lemma d_permuted : is_perm 3 [1; 2; 0] /\ apply_transformation_conf (Some [1; 2; 0]) 4 3 = Ok 2%N /\
  apply_transformation (Some [1; 2; 0]) [g0; g1; g2; g0; gi; g0; g0; g0] 3 = Ok [g0; g2; gi; g0; g1; g0; g0; g0].
Proof.
  split; [|split; reflexivity]. unfold is_perm. cbn [seq]. apply Permutation_sym. apply (Permutation_cons_append [1; 2] 0).
Qed.
Lemma d_rho : exists rho, reduced_density_matrix (RVector [g1; g0; g0; g0; g0; gi; g0; g2]) (map Z.of_nat [2; 1]) 3 = Ok rho /\
  rho 0%N 0%N = g1 /\ rho 2%N 2%N = g1 /\ rho 3%N 2%N = gopp (gmul g2 gi) /\ rho 0%N 2%N = g0.
Proof. eexists. split; [reflexivity|]. repeat split; gceq. Qed.
