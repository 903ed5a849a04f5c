(** Property C88: the cumulative mode of SymmetricOperatorGenerator. *)
From Coq Require Import String List ZArith Bool Arith Lia Reals QArith Qcanon Lra.
From Coquelicot Require Import Complex.
From Verif Require Import GC Exn M_OpString M_Tools M_Algebra M_Basis M_OpAlg M_Transform M_LinAlg M_Core
  S_Alg S_Den S_Basis S_Built S_OpAlg S_Transform S_RScal S_CFock S_CScal S_LinAlg S_Core S_Invariant S_Sparsify S_Generate S_Cumulative
  L_PropStr L_Alg L_StrAlg L_Basis L_OpAlg L_PropOpAlg L_CScal L_CFock L_LinAlg L_Inter L_Herm L_Core L_Commuting L_Trans1 L_Trans2 L_Trans5 L_Trans6 L_PartIso L_Invariant3 L_Sparsify L_Generate L_Generate2 L_LU
  L_Dim L_Cumulative L_Cumul2 L_Cumul3 L_Cumul4 P_Core P_Invariant P_Sparsify P_Generate.
Import ListNotations.
Local Open Scope nat_scope.
Local Open Scope alg_scope.

(** C88: with an exact eigensolver, entry k of projected_output_operators is a list of independent
    normalised Operators whose combinations are exactly the operators with the symmetries 0,...,k;
    symmetries are skipped only after an empty list.  Transformations are allowed when the vectors
    are kept orthonormal (no sparsification, or with orthogonalization), and then the Operators
    are orthonormal if those of the given basis are. *)
Theorem C88_cumulative : forall ty Or b syms sp orth tol, good_cbasis ty b -> cbasis_len b <> 0 -> independent_cbasis b -> (0 < tol)%R ->
  (forall y, In y syms -> good_sym ty Or b y /\ y_num y = None) ->
  (sp = false \/ orth = true) \/ (forall y, In y syms -> is_operator y) ->
  (sp = true -> (forall n V, vectors n V -> orthonormal V -> lu_columns n V (or_lu Or V)) /\ forall l, sorts l (or_argsort Or l)) ->
  exact_crun Or b syms sp orth tol ->
  exists st, generate_cumulative Or b syms sp orth tol c_fresh = Ok (Some st) /\
    length (cu_pout st) <= length syms /\ (syms <> [] -> cu_pout st <> []) /\
    (length (cu_pout st) = length syms \/ exists r, rev (cu_pout st) = [] :: r) /\
    forall k l, nth_error (cu_pout st) k = Some l ->
      (forall o, In o l -> good_cop ty o /\ cop_inner o o = RtoC 1) /\ independent_ops l /\
      (sp = false \/ orth = true -> orthonormal_cbasis b -> orthonormal_ops l) /\
      forall (A : StarAlg) (S : RScal A) (g : op -> Z -> A), rep ty g -> ~ (@aone A == azero) ->
        (forall w, length w = length l -> exists v, length v = cbasis_len b /\ cden S g (COps l) w == cden S g b v /\
           forall i y, i <= k -> nth_error syms i = Some y -> satisfies S g b y v) /\
        (forall v, length v = cbasis_len b -> (forall i y, i <= k -> nth_error syms i = Some y -> satisfies S g b y v) ->
           exists w, length w = length l /\ cden S g (COps l) w == cden S g b v).
Proof.
  intros ty Or b syms sp orth tol Hb Nb Hi Ht Hg Hm Hlu HE.
  assert (Hm' : (sp = false \/ orth = true) /\ (forall l, b = COps l -> orthonormal_ops l) \/ forall y, In y syms -> is_operator y).
  { destruct Hm as [Hm|Hm]; auto. assert (D : (forall y, In y syms -> is_operator y) \/ exists y, In y syms /\ ~ is_operator y).
    { clear. induction syms as [|y syms IH]; [left; intros y []|]. destruct IH as [IH|(z & Hz & N)]; [|right; exists z; split; auto; right; auto].
      unfold is_operator in *. destruct (y_sym y) eqn:E; [left; intros z [<-|Hz]; [rewrite E; auto | apply IH; auto] | right | right]; exists y; (split; [left; auto | rewrite E; auto]). }
    destruct D as [D|(y & Hy & N)]; auto. left. split; auto. intros l ->. destruct (Hg y Hy) as [Gy _]. unfold good_sym, is_operator in *.
    destruct (y_sym y); [exfalso; apply N; auto | | destruct Gy]. destruct Gy as [(_ & _ & Ho & _) _]. exact Ho. }
  destruct (universe_ok ty b Hb) as (Hnd & Hok & Hov & _).
  destruct (run_ok ty Or b sp orth tol Hb Nb Ht Hi Hlu syms Hg Hm' HE) as (st & Es & L1 & N1 & D1 & F1).
  exists st. split; auto. split; auto. split; auto. split; auto. intros k l Hk. destruct (F1 k l Hk) as ((G1 & G2) & G3 & G4).
  assert (Il : forall o, In o l -> inU ty (universe b) o) by (intros o Ho; apply (G1 o Ho)).
  split; [|split; [|split]].
  - intros o Ho. split; [apply (G1 o Ho)|]. rewrite (cop_inner_coords ty (universe b) Hnd Hok) by (apply Il; auto). apply (G1 o Ho).
  - apply (independent_columns ty (universe b)); auto.
  - intros Hs Hob. apply (orthonormal_columns ty (universe b)); auto. apply G3; auto. apply (Hort ty b Hb Nb Hi). intros l0 ->. exact Hob.
  - intros A S g Hr Hn. destruct (G4 A S g Hr Hn) as [K1 K2].
    assert (V : forall w v, length w = length l -> length v = cbasis_len b -> mat_vec (length (universe b)) (columns (universe b) (COps l)) w = mat_vec (length (universe b)) (columns (universe b) b) v ->
      cden S g (COps l) w == cden S g b v).
    { intros w v Lw Lv E. rewrite !cden_bval, (bval_columns ty (universe b) Hnd Hok S (den g) (COps l) w Il Lw), (bval_columns ty (universe b) Hnd Hok S (den g) b v Hov Lv), E. reflexivity. }
    split.
    + intros w Lw. destruct (K1 w Lw) as (v & Lv & Ev & Sv). exists v. split; auto. split; [apply V; auto|]. intros i y Hy E. apply (satisfies_satX ty (universe b) Hnd Hok); auto. eauto.
    + intros v Lv Sv. destruct (K2 v Lv) as (w & Lw & Ew); [|exists w; split; auto]. intros i y Hy E. apply (satisfies_satX ty (universe b) Hnd Hok); auto. eauto.
Qed.
Print Assumptions C88_cumulative.

(** Non-vacuity: X_1 and Z_1 change sign under time reversal, Z_1 commutes with Z_1. *)
Definition c88_X : COp := mkCOp [RtoC 1] (mkBasis [sX1] [(sX1, 0)]) Pauli.
Definition c88_Z : COp := mkCOp [RtoC 1] (mkBasis [sZ1] [(sZ1, 0)]) Pauli.
Lemma c88_large1 : large tol10r (RtoC 1) = true.
Proof. unfold large. apply lt_dec_true. rewrite Cmod_R, Rabs_R1. unfold tol10r. simpl. lra. Qed.
Lemma c88_large0 : large tol10r (RtoC 0) = false.
Proof. unfold large. apply not_true_iff_false. rewrite lt_dec_true, Cmod_0. pose proof tol10_pos. lra. Qed.
Definition c88_st0 : cstate := mkC [c82_zero2] [[c88_X; c88_Z]] [[c82_e1; c82_e2]].
Lemma c88_run0 : generate_cumulative c82_oracles c82_basis [c82_y0] false false tol10r c_fresh = Ok (Some c88_st0).
Proof.
  unfold generate_cumulative. cbn [length seq combine]. unfold ofold. cbn [rfold]. unfold c_step. cbn [Nat.eqb rbind]. change (cbasis_len c82_basis) with 2. cbn [Nat.eqb].
  rewrite c82_search0. cbn [rbind c_sparsify f_ops f_super to_operators]. unfold to_operator, c82_basis, c82_e1, c82_e2. cbn [b_strings c78_basis combine filter fst].
  rewrite c88_large1, c88_large0. reflexivity.
Qed.
Lemma c88_columns : liouvillian_columns GCommutator (COps [c88_X; c88_Z]) c78_op = Ok [[(0, -2)%R]; [RtoC 0]].
Proof.
  unfold liouvillian_columns. replace (ccombined [c88_X; c88_Z]) with c78_basis by reflexivity.
  match goal with |- context [liouvillian_mode ?m ?b ?o] => let r := eval vm_compute in (liouvillian_mode m b o) in
    replace (liouvillian_mode m b o) with r by (vm_compute; reflexivity) end.
  cbn [rbind rmap]. unfold coeff_column, c_terms. cbn [c_coeffs c_basis c88_X c88_Z combine b_strings rmap fst snd].
  match goal with |- context [basis_index ?b sX1] => replace (basis_index b sX1) with (@Ok nat 0) by reflexivity end.
  match goal with |- context [basis_index ?b sZ1] => replace (basis_index b sZ1) with (@Ok nat 1) by reflexivity end.
  cbn [rbind basis_len b_strings c78_basis length seq map fst snd Nat.eqb]. f_equal.
  unfold rows_vec, dense_rows, csum. cbn -[Q2R RtoC]. unfold to_C. cbn -[RtoC]. unfold Q2R, RtoC. cbn. repeat f_equal; apply C_ext; cbn; lra.
Qed.
Lemma c88_search1 : search c82_oracles (COps [c88_X; c88_Z]) c82_y1 tol10r = Ok (mkFound [c82_e2] c78_super [0%R; 4%R] [c82_e2; c82_e1] false).
Proof.
  unfold search, c82_y1. cbn [y_sym y_mode y_num or_eig or_pinv c82_oracles]. unfold commuting_operators. rewrite c88_columns. cbn [rbind]. rewrite c78_gram.
  unfold c82_eig, c78_super at 1 2 3 4. cbn [fst RtoC]. destruct (Req_EM_T 4 4) as [_|E]; [|lra].
  unfold keep, c78_pairs. cbn [filter fst snd map]. rewrite c82_small, (c82_large 4) by lra. reflexivity.
Qed.
Lemma c88_exact : exact_crun c82_oracles c82_basis [c82_y0; c82_y1] false false tol10r.
Proof.
  assert (En : forall v z, In v [c82_e1; c82_e2] -> In z v -> z = RtoC 0 \/ (tol10r < Cmod z)%R).
  { intros v z [<-|[<-|[]]] Hz; destruct Hz as [<-|[<-|[]]]; auto; right; rewrite Cmod_R, Rabs_R1; unfold tol10r; simpl; lra. }
  intros [|z [|z' [|z'' s]]] y rest st Es Eg; [| |exfalso|exfalso].
  - unfold generate_cumulative in Eg. cbn in Eg. injection Eg as <-. cbn [app] in Es. injection Es as <- _. change (current c82_basis c_fresh) with c82_basis.
    intros f Ef. rewrite c82_search0 in Ef. injection Ef as <-. cbn [f_super f_evals f_evecs f_ops combine]. split; [apply c82_pairs0|].
    intros vs E. injection E as <-. exact En.
  - cbn [app] in Es. injection Es as <- <- _. rewrite c88_run0 in Eg. injection Eg as <-. change (current c82_basis c88_st0) with (COps [c88_X; c88_Z]).
    intros f Ef. rewrite c88_search1 in Ef. injection Ef as <-. cbn [f_super f_evals f_evecs f_ops combine]. split; [apply c82_pairs1|].
    intros vs E. injection E as <-. intros v w Hv. apply En. destruct Hv as [<-|[]]. simpl; auto.
  - apply (f_equal (@length _)) in Es. rewrite app_length in Es. cbn in Es. lia.
  - apply (f_equal (@length _)) in Es. rewrite app_length in Es. cbn in Es. lia.
Qed.
Example C88_example : good_cbasis Pauli c82_basis /\ cbasis_len c82_basis <> 0 /\ independent_cbasis c82_basis /\
  (forall y, In y [c82_y0; c82_y1] -> good_sym Pauli c82_oracles c82_basis y /\ y_num y = None) /\
  exact_crun c82_oracles c82_basis [c82_y0; c82_y1] false false tol10r /\
  exists st, generate_cumulative c82_oracles c82_basis [c82_y0; c82_y1] false false tol10r c_fresh = Ok (Some st) /\
    length (cu_pout st) = 2 /\ nth_error (cu_pout st) 0 = Some [c88_X; c88_Z] /\ exists o, nth_error (cu_pout st) 1 = Some [o].
Proof.
  split; [apply c78_good_basis|]. split; [discriminate|]. split; [exact I|]. split; [apply c82_good|]. split; [apply c88_exact|].
  destruct (C88_cumulative Pauli c82_oracles c82_basis [c82_y0; c82_y1] false false tol10r c78_good_basis ltac:(discriminate) I tol10_pos c82_good ltac:(auto) ltac:(discriminate) c88_exact)
    as (st & Es & _). exists st. split; auto.
  change [c82_y0; c82_y1] with ([c82_y0] ++ [c82_y1]) in Es. rewrite (gen_snoc c82_oracles c82_basis false false tol10r [c82_y0] c82_y1), c88_run0 in Es. unfold c_step in Es. cbn [length Nat.eqb] in Es.
  cbn [rev cu_pout c88_st0 app rbind cbasis_len length Nat.eqb] in Es. rewrite c88_search1 in Es. cbn [rbind c_sparsify f_ops f_super to_operators] in Es.
  destruct (to_operator (COps [c88_X; c88_Z]) tol10r c82_e2) as [[o|]|e]; cbn [rbind] in Es; try discriminate. injection Es as <-. cbn. split; auto. split; auto. eauto.
Qed.
