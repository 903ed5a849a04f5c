(** Statements and witnesses for P_OpAlg.v. *)
From Coq Require Import String List ZArith Bool Arith Lia Sorted QArith Qcanon.
From Verif Require Import GC Exn S_Alg S_Den S_Basis S_Built S_OpAlg M_OpString M_Algebra M_Basis M_OpAlg
  L_Alg L_StrAlg L_StrOp L_Indep L_PropStr L_Basis L_Operator L_Heap L_PropBasis L_OpAlg L_Sum L_Struct L_Commutant L_Jacobi L_Lie.
Import ListNotations.
Local Open Scope nat_scope.
Local Open Scope alg_scope.

Lemma operation_dropped_proof ty m A B : ty <> Fermion -> good_op ty A -> good_op ty B ->
  exists C dr, operation_operator m A B = Ok C /\ good_op ty C /\ canonical_op C /\
    length dr <= op_len A * op_len B /\ (forall x, In x dr -> dropped_from m (op_terms A) (op_terms B) x) /\
    forall (Al : StarAlg) (g : op -> Z -> Al), rep ty g ->
      lincomb g (op_terms C) + lincomb g dr == exact m (lincomb g (op_terms A)) (lincomb g (op_terms B)).
Proof.
  intros Hty HA HB. destruct (operation_operator_proof ty m A B Hty HA HB) as (C & dr & H1 & H2 & H3 & H4 & H5 & H6).
  exists C, dr. do 5 (split; auto). intros Al g Hr. apply H6; auto.
Qed.

Definition sX1 := mkOS [OX] [1%Z] Pauli p_one.
Definition sY1 := mkOS [OY] [1%Z] Pauli p_one.
Definition sZ1 := mkOS [OZ] [1%Z] Pauli p_one.
Definition sXX := mkOS [OX; OX] [1%Z; 2%Z] Pauli p_one.
Definition sZ2 := mkOS [OZ] [2%Z] Pauli p_one.
Definition sA1 := mkOS [OA] [1%Z] Majorana p_one.
Definition sA1B2 := mkOS [OA; OB] [1%Z; 2%Z] Majorana p_j.

Ltac string_ok_tac := split; [reflexivity|]; split; [reflexivity|]; split;
  [let o := fresh in let H := fresh in intros o H; simpl in H; intuition (subst; reflexivity)|];
  split; [repeat (constructor; [simpl; intuition discriminate|]); constructor | reflexivity].

Lemma ok_X1 : string_ok Pauli sX1. Proof. string_ok_tac. Qed.
Lemma ok_Y1 : string_ok Pauli sY1. Proof. string_ok_tac. Qed.
Lemma ok_Z1 : string_ok Pauli sZ1. Proof. string_ok_tac. Qed.
Lemma ok_Z2 : string_ok Pauli sZ2. Proof. string_ok_tac. Qed.
Lemma ok_XX : string_ok Pauli sXX. Proof. string_ok_tac. Qed.
Lemma ok_A1 : string_ok Majorana sA1. Proof. string_ok_tac. Qed.
Lemma ok_A1B2 : string_ok Majorana sA1B2. Proof. string_ok_tac. Qed.

Lemma good_op_intro ty cs l o : op_new cs l None = Ok o -> length cs = length l -> o_type o = ty ->
  (forall s, In s l -> string_ok ty s) -> good_op ty o.
Proof.
  intros H Hl Ht Hs. assert (M : made o) by (exists cs, l, None; auto). split; auto. split; auto.
  unfold op_new in H. apply rbind_ok in H. destruct H as (b & Hb & H). apply basis_new_ok in Hb. destruct Hb as [<- Hb].
  unfold op_of_basis in H. destruct (b_strings b) eqn:E; [discriminate|]. injection H as <-. simpl. rewrite E. auto.
Qed.
Lemma good_basis_intro ty l b : basis_new l = Ok b -> (forall s, In s l -> string_ok ty s) -> good_basis ty b.
Proof. intros H Hs. split; [eapply built_new; eauto|]. apply basis_new_ok in H. destruct H as [-> _]. auto. Qed.

Definition big := gz 10000000000.
Definition tiny := gq (Q2Qc (1 # 1000000000)).

Definition jac : res bool :=
  let! A := op_new [big] [sY1] None in let! B := op_new [tiny] [sY1] None in let! C := op_new [tiny] [sZ1] None in
  let! BC := commutator_op B C in let! CA := commutator_op C A in let! AB := commutator_op A B in
  let! X := commutator_op A BC in let! Y := commutator_op B CA in let! Z := commutator_op C AB in
  let! XY := op_add X Y in let! R := op_add XY Z in Ok (existsb (fun c => negb (gc_eqb c g0)) (o_coeffs R)).
Lemma jac_ok : exists A B C BC CA AB X Y Z XY R,
  op_new [big] [sY1] None = Ok A /\ op_new [tiny] [sY1] None = Ok B /\ op_new [tiny] [sZ1] None = Ok C /\
  commutator_op B C = Ok BC /\ commutator_op C A = Ok CA /\ commutator_op A B = Ok AB /\
  commutator_op A BC = Ok X /\ commutator_op B CA = Ok Y /\ commutator_op C AB = Ok Z /\
  op_add X Y = Ok XY /\ op_add XY Z = Ok R /\ exists c, In c (o_coeffs R) /\ c <> g0.
Proof.
  assert (H : jac = Ok true) by (vm_compute; reflexivity). unfold jac in H.
  apply rbind_ok in H; destruct H as (A & EA & H).
  apply rbind_ok in H; destruct H as (B & EB & H).
  apply rbind_ok in H; destruct H as (C & EC & H).
  apply rbind_ok in H; destruct H as (BC & E1 & H).
  apply rbind_ok in H; destruct H as (CA & E2 & H).
  apply rbind_ok in H; destruct H as (AB & E3 & H).
  apply rbind_ok in H; destruct H as (X & E4 & H).
  apply rbind_ok in H; destruct H as (Y & E5 & H).
  apply rbind_ok in H; destruct H as (Z & E6 & H).
  apply rbind_ok in H; destruct H as (XY & E7 & H).
  apply rbind_ok in H; destruct H as (R & E8 & H).
  exists A, B, C, BC, CA, AB, X, Y, Z, XY, R. do 11 (split; [assumption|]).
  injection H as H. apply existsb_exists in H. destruct H as (c & Hin & Hn). exists c. split; auto.
  intros ->. revert Hn. vm_compute. discriminate.
Qed.

(** Jacobi fails when an inner commutator is dropped as too small. *)
Lemma jacobi_witness : exists A B C BC CA AB X Y Z XY R,
    good_op Pauli A /\ good_op Pauli B /\ good_op Pauli C /\
    commutator_op B C = Ok BC /\ commutator_op C A = Ok CA /\ commutator_op A B = Ok AB /\
    commutator_op A BC = Ok X /\ commutator_op B CA = Ok Y /\ commutator_op C AB = Ok Z /\
    op_add X Y = Ok XY /\ op_add XY Z = Ok R /\ exists c, In c (o_coeffs R) /\ c <> g0.
Proof.
  destruct jac_ok as (A & B & C & BC & CA & AB & X & Y & Z & XY & R & EA & EB & EC & E1 & E2 & E3 & E4 & E5 & E6 & E7 & E8 & Hc).
  exists A, B, C, BC, CA, AB, X, Y, Z, XY, R.
  split; [apply (good_op_intro Pauli [big] [sY1]); try injection EA as <-; try reflexivity; intros s [<-|[]]; apply ok_Y1|].
  split; [apply (good_op_intro Pauli [tiny] [sY1]); try injection EB as <-; try reflexivity; intros s [<-|[]]; apply ok_Y1|].
  split; [apply (good_op_intro Pauli [tiny] [sZ1]); try injection EC as <-; try reflexivity; intros s [<-|[]]; apply ok_Z1|].
  do 8 (split; [assumption|]). exact Hc.
Qed.

(** Jacobi for any coefficients as long as no term is dropped on the way. *)
Lemma jacobi_no_small_proof ty A B C BC CA AB : ty <> Fermion -> good_op ty A -> good_op ty B -> good_op ty C ->
  commutator_op B C = Ok BC -> commutator_op C A = Ok CA -> commutator_op A B = Ok AB ->
  no_small B C -> no_small C A -> no_small A B -> no_small A BC -> no_small B CA -> no_small C AB ->
  exists X Y Z XY R,
    commutator_op A BC = Ok X /\ commutator_op B CA = Ok Y /\ commutator_op C AB = Ok Z /\
    op_add X Y = Ok XY /\ op_add XY Z = Ok R /\ forall c, In c (o_coeffs R) -> c = g0.
Proof.
  intros Hty HA HB HC Q1 Q2 Q3 N1 N2 N3 N4 N5 N6.
  destruct (operation_exact ty MCommutator B C Hty HB HC N1) as (BC' & E1 & G1 & _ & D1).
  destruct (operation_exact ty MCommutator C A Hty HC HA N2) as (CA' & E2 & G2 & _ & D2).
  destruct (operation_exact ty MCommutator A B Hty HA HB N3) as (AB' & E3 & G3 & _ & D3).
  unfold commutator_op in *. rewrite Q1 in E1. rewrite Q2 in E2. rewrite Q3 in E3.
  injection E1 as <-. injection E2 as <-. injection E3 as <-.
  destruct (operation_exact ty MCommutator A BC Hty HA G1 N4) as (X & E4 & G4 & C4 & D4).
  destruct (operation_exact ty MCommutator B CA Hty HB G2 N5) as (Y & E5 & G5 & C5 & D5).
  destruct (operation_exact ty MCommutator C AB Hty HC G3 N6) as (Z & E6 & G6 & C6 & D6).
  destruct (add_canonical ty X Y G4 G5 C4 C5) as (XY & E7 & G7 & C7 & D7).
  destruct (add_canonical ty XY Z G7 G6 C7 C6) as (R & E8 & G8 & C8 & D8).
  exists X, Y, Z, XY, R. do 5 (split; auto). apply (zero_coeffs ty); auto.
  pose proof (fock_rep ty Hty) as Hf.
  rewrite D8, D7, (D4 _ _ Hf), (D5 _ _ Hf), (D6 _ _ Hf), (D1 _ _ Hf), (D2 _ _ Hf), (D3 _ _ Hf). apply jacobi_alg.
Qed.
