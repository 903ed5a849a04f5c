(** Properties C78-: commuting_operators, invariant_operators and the operator generator. *)
From Coq Require Import String List ZArith Bool Arith Lia Reals QArith Qcanon Lra.
From Coquelicot Require Import Complex.
From Verif Require Import GC Exn M_OpString M_Tools M_Algebra M_Basis M_OpAlg M_Transform M_LinAlg M_Core
  S_Alg S_Den S_Basis S_Built S_OpAlg S_RScal S_CFock S_CScal S_LinAlg S_Core
  L_PropStr L_Alg L_Basis L_OpAlg L_Jacobi L_PropOpAlg L_CScal L_CFock L_LinAlg L_Inter L_Herm L_Core L_Commuting.
Import ListNotations.
Local Open Scope nat_scope.
Local Open Scope alg_scope.

(** C78: the kernel of the superoperator of commuting_operators is the space of operators whose
    commutator (anticommutator, product) with [o] is zero. *)
Theorem C78_kernel : forall ty gm m basis o eig nv tol, ty <> Fermion -> good_cbasis ty basis -> good_op ty o -> op_mode gm = Some m ->
  exists f, commuting_operators eig basis o gm nv tol = Ok f /\ length (f_super f) = cbasis_len basis /\
    forall (A : StarAlg) (S : RScal A) (g : op -> Z -> A), rep ty g -> ~ (@aone A == azero) ->
    forall v, length v = cbasis_len basis ->
      (rows_vec (f_super f) v = repeat (RtoC 0) (cbasis_len basis) <-> exact m (cden S g basis v) (lincomb g (op_terms o)) == azero).
Proof.
  intros ty gm m basis o eig nv tol Hty Hb Ho Hm.
  destruct (commuting_proof ty gm m basis o Hty Hb Ho Hm eig nv tol) as (f & C & cols & Hf & HD & HC & Vc & Lc & _ & _ & _ & _ & D).
  exists f. split; auto. rewrite HD. split; [rewrite gram_length; auto|].
  intros A S g Hr Hn. apply (commuting_kernel ty m basis o C cols A S g); auto.
Qed.
Print Assumptions C78_kernel.
(** If the solver returns eigenvectors, then the operators returned are not zero and their
    commutator with [o] has coefficients whose norm is at most sqrt(tol) times the norm of the
    vector (in any case, and zero for the eigenvalue zero); orthonormal eigenvectors give
    orthonormal results. *)
Theorem C78_sound : forall ty gm m basis o eig nv tol f, ty <> Fermion -> good_cbasis ty basis -> good_op ty o -> op_mode gm = Some m ->
  commuting_operators eig basis o gm nv tol = Ok f -> eigenpairs (f_super f) (eig nv (f_super f)) ->
  (forall v, In v (f_ops f) -> length v = cbasis_len basis /\ v <> repeat (RtoC 0) (cbasis_len basis) /\
     exists C w, canonical_basis ty C /\ length w = basis_len C /\ (norm2c w < tol * norm2c v)%R /\
       forall (A : StarAlg) (S : RScal A) (g : op -> Z -> A), rep ty g ->
         exact m (cden S g basis v) (lincomb g (op_terms o)) == clincomb S g (combine w (b_strings C))) /\
  (orthonormal (map snd (eig nv (f_super f))) -> orthonormal (f_ops f)).
Proof.
  intros ty gm m basis o eig nv tol f Hty Hb Ho Hm Hf He.
  destruct (commuting_proof ty gm m basis o Hty Hb Ho Hm eig nv tol) as (f' & C & cols & Hf' & HD & HC & Vc & Lc & Ho' & _ & _ & _ & D).
  rewrite Hf in Hf'. injection Hf' as <-. split; [|rewrite Ho'; apply keep_orthonormal].
  rewrite Ho'. rewrite HD in *. intros v Hv. destruct (gram_sound _ _ _ _ _ Vc He Hv) as (H1 & H2 & H3).
  split; [exact (eq_trans H1 Lc)|]. split; [intros E; apply H2; transitivity (repeat (RtoC 0) (cbasis_len basis)); [exact E|rewrite <- Lc; reflexivity]|]. exists C, (mat_vec (basis_len C) cols v). split; auto. split; [apply mat_vec_length; auto|].
  split; [rewrite <- !sqsum_norm2c; auto|]. intros A S g Hr. apply D; auto. exact (eq_trans H1 Lc).
Qed.
Print Assumptions C78_sound.
(** No commuting operator is missed: if the solver is exact and there is no warning, every
    operator that commutes with [o] is in the span of the returned ones; and if no eigenvalue lies
    strictly between 0 and [tol] the span is exactly the space of commuting operators. *)
Theorem C78_complete : forall ty gm m basis o eig nv tol f, ty <> Fermion -> good_cbasis ty basis -> good_op ty o -> op_mode gm = Some m -> (0 < tol)%R ->
  commuting_operators eig basis o gm nv tol = Ok f ->
  match nv with None => full_solution (f_super f) (eig nv (f_super f)) | Some k => lowest_solution k (f_super f) (eig nv (f_super f)) end ->
  f_warn f = false ->
  forall (A : StarAlg) (S : RScal A) (g : op -> Z -> A), rep ty g -> ~ (@aone A == azero) ->
  forall v, length v = cbasis_len basis ->
    (exact m (cden S g basis v) (lincomb g (op_terms o)) == azero -> span (cbasis_len basis) (f_ops f) v) /\
    ((forall e, In e (f_evals f) -> e = 0 \/ tol <= Rabs e)%R -> span (cbasis_len basis) (f_ops f) v ->
       exact m (cden S g basis v) (lincomb g (op_terms o)) == azero).
Proof.
  intros ty gm m basis o eig nv tol f Hty Hb Ho Hm Ht Hf He Hw A S g Hr Hn v Lv.
  destruct (commuting_proof ty gm m basis o Hty Hb Ho Hm eig nv tol) as (f' & C & cols & Hf' & HD & HC & Vc & Lc & Ho' & Hw' & He' & _ & D).
  rewrite Hf in Hf'. injection Hf' as <-. rewrite Ho' in *. rewrite He'. rewrite HD in *. rewrite Hw in Hw'. clear Hw.
  pose proof (commuting_kernel ty m basis o C cols A S g Hr Hn HC Vc Lc (D A S g Hr)) as K. split.
  - intros Hv. apply K in Hv; auto. rewrite <- Lc in Hv, Lv |- *. apply (gram_complete (basis_len C) cols nv); auto.
  - intros Hg Hs. apply K; auto. rewrite <- Lc in Hs |- *. clear Lv. fold (vzero (length cols)).
    assert (Hp : eigenpairs (gram cols) (eig nv (gram cols))) by (destruct nv; apply He).
    assert (Hlen : forall u, In u (keep (fun e => lt_dec (Rabs e) tol) (eig nv (gram cols))) -> length u = length cols /\ rows_vec (gram cols) u = vzero (length cols)).
    { intros u Hu. apply keep_in in Hu. destruct Hu as (l & Hin & T). apply lt_dec_true in T.
      destruct (Hp l u Hin) as (Lu & _ & Eu). rewrite gram_length in Lu. split; auto.
      destruct (Hg l) as [->|G]; [apply in_map_iff; exists (l, u); auto| |exfalso; lra].
      rewrite Eu. fold (vscale (RtoC 0) u). rewrite vscale_0, Lu. reflexivity. }
    apply (gram_kernel (basis_len C) cols Vc); [eapply span_length; [|eauto]; intros u Hu; apply (Hlen u Hu)|].
    assert (Vk : vectors (length cols) (keep (fun e => lt_dec (Rabs e) tol) (eig nv (gram cols)))) by (intros u Hu; apply (Hlen u Hu)).
    clear - Hs Hlen Vc Vk. induction Hs as [|c u w Hu Hw IH]; [apply mat_vec_zero; auto|].
    change (mat_vec (basis_len C) cols (vadd (vscale c u) w) = vzero (basis_len C)).
    destruct (Hlen u Hu) as [Lu Eu]. apply (gram_kernel (basis_len C) cols Vc u Lu) in Eu.
    rewrite mat_vec_add, mat_vec_scale, Eu, IH, vscale_zero by (auto; try rewrite vscale_length; auto; eapply span_length; eauto). apply vadd_vzero.
Qed.
Print Assumptions C78_complete.

(** Non-vacuity: the operators in the span of X_1 and Z_1 that commute with Z_1. *)
Definition c78_basis : Basis := mkBasis [sX1; sZ1] [(sX1, 0); (sZ1, 1)].
Definition c78_op : Operator := mkOperator [g1] (mkBasis [sZ1] [(sZ1, 0)]) Pauli.
Definition c78_super : list vec := [[RtoC 4; RtoC 0]; [RtoC 0; RtoC 0]].
Definition c78_pairs : list (R * vec) := [(0%R, [RtoC 0; RtoC 1]); (4%R, [RtoC 1; RtoC 0])].
Lemma c78_good_basis : good_basis Pauli c78_basis.
Proof. split; [apply (built_new [sX1; sZ1]); reflexivity|]. intros s [<-|[<-|[]]]; [apply ok_X1 | apply ok_Z1]. Qed.
Lemma c78_good_op : good_op Pauli c78_op.
Proof. apply (good_op_intro Pauli [g1] [sZ1]); try reflexivity; intros s [<-|[]]; apply ok_Z1. Qed.
Lemma c78_columns : liouvillian_columns GCommutator (CBasis c78_basis) c78_op = Ok [[(0, -2)%R]; [RtoC 0]].
Proof.
  unfold liouvillian_columns. match goal with |- context [liouvillian_mode ?g ?b ?o] => let r := eval vm_compute in (liouvillian_mode g b o) in
    replace (liouvillian_mode g b o) with r by (vm_compute; reflexivity) end.
  cbn [rbind]. unfold dense_cols. cbn -[Q2R RtoC]. unfold to_C. cbn -[RtoC]. unfold Q2R, RtoC. cbn.
  repeat f_equal; lra.
Qed.
Lemma c78_gram : gram [[(0, -2)%R]; [RtoC 0]] = c78_super.
Proof. unfold gram, c78_super. cbn. unfold csum. cbn. repeat f_equal; apply C_ext; cbn; lra. Qed.
Lemma c78_full : full_solution c78_super c78_pairs.
Proof.
  split.
  - intros l v [E|[E|[]]]; injection E as <- <-; (split; [reflexivity|]); (split; [intros E; injection E; lra|]);
      cbn; unfold csum; cbn; repeat (match goal with |- _ :: _ = _ :: _ => f_equal end); apply injective_projections; cbn; lra.
  - intros [|a [|b [|c x]]] H; try discriminate. cbn [length c78_super map c78_pairs snd].
    replace [a; b] with (zip_with Cplus (map (Cmult a) [RtoC 1; RtoC 0]) (zip_with Cplus (map (Cmult b) [RtoC 0; RtoC 1]) (repeat (RtoC 0) 2))).
    + apply span_add; [simpl; auto|]. apply span_add; [simpl; auto|]. apply span_zero.
    + cbn. repeat (match goal with |- _ :: _ = _ :: _ => f_equal end); apply injective_projections; cbn; lra.
Qed.
Lemma c78_run : commuting_operators (fun _ _ => c78_pairs) (CBasis c78_basis) c78_op GCommutator None tol10r =
  Ok (mkFound [[RtoC 0; RtoC 1]] c78_super [0%R; 4%R] [[RtoC 0; RtoC 1]; [RtoC 1; RtoC 0]] false).
Proof.
  unfold commuting_operators. rewrite c78_columns. cbn [rbind]. rewrite c78_gram. unfold keep. cbn [filter c78_pairs fst map].
  replace (lt_dec (Rabs 0) tol10r) with true. replace (lt_dec (Rabs 4) tol10r) with false. reflexivity.
  - symmetry. apply not_true_iff_false. rewrite lt_dec_true, Rabs_right by lra. unfold tol10r. simpl. lra.
  - symmetry. apply lt_dec_true. rewrite Rabs_R0. unfold tol10r. simpl. lra.
Qed.
Example C78_example : exists eig f, commuting_operators eig (CBasis c78_basis) c78_op GCommutator None tol10r = Ok f /\
  good_cbasis Pauli (CBasis c78_basis) /\ good_op Pauli c78_op /\ full_solution (f_super f) (eig None (f_super f)) /\ f_warn f = false /\
  (forall e, In e (f_evals f) -> e = 0 \/ tol10r <= Rabs e)%R /\ f_ops f = [[RtoC 0; RtoC 1]] /\
  (exists (A : StarAlg) (S : RScal A) (g : op -> Z -> A), rep Pauli g /\ ~ (@aone A == azero)).
Proof.
  exists (fun _ _ => c78_pairs). eexists. split; [apply c78_run|]. split; [apply c78_good_basis|]. split; [apply c78_good_op|].
  split; [apply c78_full|]. split; [reflexivity|]. split; [|split; [reflexivity|]].
  - intros e [<-|[<-|[]]]; [left; auto|right]. rewrite Rabs_right by lra. unfold tol10r. simpl. lra.
  - exists CFock, cfock_real, cgen. split; [apply cfock_pauli | apply cfock_nontrivial].
Qed.
(** The same for a list of Operators: X_1 + Z_1 and Z_1. *)
Example C78_list_example : good_cbasis Pauli (COps [mkCOp [RtoC 1; RtoC 1] c78_basis Pauli; cop_of c78_op]).
Proof.
  split; [discriminate|]. intros o [<-|[<-|[]]].
  - split; [apply c78_good_basis|]. split; [reflexivity|]. split; [reflexivity|]. apply c78_good_basis.
  - split; [apply (built_new [sZ1]); reflexivity|]. split; [reflexivity|]. split; [reflexivity|]. intros s [<-|[]]; apply ok_Z1.
Qed.

(** C79: the claim is that an [operation_mode] that is not one of the three is rejected.  It is
    false: every such string, for example 'commute' (accepted by invariant_operators), gives the
    zero matrix, so that all operators seem to commute. *)
Theorem C79_refuted : forall ty gm basis o eig nv tol, ty <> Fermion -> good_cbasis ty basis -> good_op ty o -> op_mode gm = None ->
  exists f, commuting_operators eig basis o gm nv tol = Ok f /\ length (f_super f) = cbasis_len basis /\
    forall v, rows_vec (f_super f) v = repeat (RtoC 0) (cbasis_len basis).
Proof. exact unknown_mode_proof. Qed.
Print Assumptions C79_refuted.
(** X_1 is returned as an operator that commutes with Z_1. *)
Example C79_example : exists eig f, commuting_operators eig (CBasis (mkBasis [sX1] [(sX1, 0)])) c78_op GCommute None tol10r = Ok f /\
  full_solution (f_super f) (eig None (f_super f)) /\ f_ops f = [[RtoC 1]] /\
  ~ (exact MCommutator (cden cfock_real cgen (CBasis (mkBasis [sX1] [(sX1, 0)])) [RtoC 1]) (lincomb cgen (op_terms c78_op)) == azero).
Proof.
  exists (fun _ _ => [(0%R, [RtoC 1])]). eexists. split; [|split; [|split]].
  - unfold commuting_operators, liouvillian_columns.
    assert (Hb : good_basis Pauli (mkBasis [sX1] [(sX1, 0)])) by (split; [apply (built_new [sX1]); reflexivity | intros s [<-|[]]; apply ok_X1]).
    rewrite (liouvillian_unknown Pauli GCommute _ _ ltac:(discriminate) Hb c78_good_op eq_refl).
    reflexivity.
  - split.
    + intros l v [E|[]]. injection E as <- <-. split; [reflexivity|]. split; [intros E; injection E; lra|].
      cbn. unfold csum. cbn. f_equal. apply injective_projections; cbn; lra.
    + intros [|a [|b x]] H; try discriminate. replace [a] with (zip_with Cplus (map (Cmult a) [RtoC 1]) (repeat (RtoC 0) 1)).
      * apply span_add; [simpl; auto|]. apply span_zero.
      * cbn. f_equal. apply injective_projections; cbn; lra.
  - unfold keep. cbn [filter fst f_ops]. replace (lt_dec (Rabs 0) tol10r) with true; [reflexivity|].
    symmetry. apply lt_dec_true. rewrite Rabs_R0. unfold tol10r. simpl. lra.
  - intros [H _]. specialize (H (fun _ => RtoC 1) 0%N). apply (f_equal fst) in H. revert H. cbv -[Rplus Rmult Ropp Rinv IZR]. lra.
Qed.
