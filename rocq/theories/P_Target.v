(** Properties C103-C104: target_operator and target_fidelity of selected_ci_greedy. *)
From Coq Require Import String List ZArith Bool Arith Lia Permutation Reals QArith Qreals Qcanon Lra.
From Coquelicot Require Import Complex.
From Verif Require Import GC Exn M_OpString M_Tools M_Algebra M_Basis M_OpAlg M_Transform M_LinAlg M_Explore M_Core M_Greedy M_Target
  S_Alg S_Den S_Basis S_Built S_OpAlg S_Explore S_RScal S_CFock S_CScal S_LinAlg S_Core S_Greedy S_Fidelity S_Target
  L_Alg L_Basis L_PropBasis L_PropStr L_PropOpAlg L_Explore L_LinAlg L_Inter L_Herm L_Core L_Commuting L_Greedy1 L_Greedy2 L_Greedy3 L_Greedy4 L_Search L_Fidelity
  P_Core P_Default P_Greedy P_Search P_Fidelity L_Target.
Import ListNotations.
Local Open Scope nat_scope.

(** C103: with a [target_operator] the recorded Operators are still normalised and recorded with
    their commutator norms; but in bases of fewer than 20 strings each of them is the part of
    the Operator it follows that lies in the basis, whatever the Hamiltonian is.  Without
    [target_fidelity] the search ends after at most [num_steps] iterations. *)
Theorem C103_target : forall ty H Or p fuel init tgt tf k n thr x,
  ty <> Fermion -> std_op ty H -> std_cop ty init -> std_cop ty tgt -> real_vec (c_coeffs tgt) -> explored ty H x ->
  real_solver (gr_eig Or) -> orthonormal_solver (gr_eig Or) -> sorts_reals (gr_sort Or) -> gp_trans p = None -> gp_orth p = None ->
  (tf = None -> n <= k -> selected_ci_target Or p fuel init [H] tgt tf k n thr x <> Ok None) /\
  forall best bestn ops norms, selected_ci_target Or p fuel init [H] tgt tf k n thr x = Ok (Some (best, bestn, ops, norms)) ->
    Forall2 (fun o e => std_cop ty o /\ real_vec (c_coeffs o) /\ norm2c (c_coeffs o) = 1%R /\ commutator_norm ty H o e) ops norms /\
    best_of init ops norms best bestn /\ length ops <= n /\
    forall i o, nth_error ops i = Some o -> exists T, followed tgt init ops norms i T /\
      (complete_solver (gr_eig Or) -> basis_len (c_basis o) < 20 -> normalised_part T o).
Proof.
  intros ty H Or p fuel init tgt tf k n thr x Hty HH Hi Ht Rt Hx Heig Hort Hsort Hpt Hpo.
  pose proof (start_ok ty H init x thr Hty HH Hi Hx) as Hst.
  assert (Ht0 : tstate_ok ty H init 0 (t_g (mkT (mkG (basis_iadd basis_empty (c_basis init)) init x [] [] init None thr false) (gp_vecs p)))) by (split; auto).
  unfold selected_ci_target. destruct (forallb _ _); [split; [intros _ _ F; discriminate | intros; discriminate]|]. split.
  - intros -> Hk F. match type of F with context [rbind ?a _] => destruct a as [[st|]|] eqn:El; try discriminate end.
    eapply target_loop_ends; [..|exact El]; eauto.
  - intros best bestn ops norms E. match type of E with context [rbind ?a _] => destruct a as [[st|]|] eqn:El; try discriminate end. cbn [rbind] in E. injection E as <- <- <- <-.
    destruct (target_loop_ok ty H Hty HH Or p Heig Hort Hsort Hpt Hpo fuel init tgt tf Ht Rt k n 0 _ _ Ht0 El) as ([(_ & _ & _ & HF & HB) _] & os & es & K1 & K2 & K3 & K4).
    cbn [t_g g_ops g_norms app] in K1, K2. split; [exact HF|]. split; [exact HB|]. split; [rewrite K1; apply K3; lia|].
    intros i o Hi'. rewrite K1 in Hi'. destruct (K4 i o Hi') as (T & F1 & F2). exists T. split; auto.
Qed.
Print Assumptions C103_target.

(** The Hamiltonian 2 Z_1 + X_2, the initial Operator and the target X_1 + Z_2. *)
Definition tg_X2 := mkOS [OX] [2%Z] Pauli p_one.
Definition tg_Y2 := mkOS [OY] [2%Z] Pauli p_one.
Lemma tg_okX2 : string_ok Pauli tg_X2. Proof. string_ok_tac. Qed.
Definition tg_HB : Basis := mkBasis [sZ1; tg_X2] [(sZ1, 0); (tg_X2, 1)].
Definition tg_H : Operator := mkOperator [gadd g1 g1; g1] tg_HB Pauli.
Definition tg_B : Basis := mkBasis [sX1; sZ2] [(sX1, 0); (sZ2, 1)].
Definition tg_A : Basis := mkBasis [sY1; tg_Y2] [(sY1, 0); (tg_Y2, 1)].
Definition tg_B2 : Basis := mkBasis [sZ2] [(sZ2, 0)].
Definition tg_A2 : Basis := mkBasis [tg_Y2] [(tg_Y2, 0)].
Definition tg_init : COp := mkCOp [RtoC 1; RtoC 1] tg_B Pauli.
Definition tg_D : list vec := [[RtoC 16; RtoC 0]; [RtoC 0; RtoC 4]].
Definition tg_D2 : list vec := [[RtoC 4]].
Definition tg_ps : list (R * vec) := [(4%R, [RtoC 0; RtoC 1]); (16%R, [RtoC 1; RtoC 0])].
Definition tg_ps2 : list (R * vec) := [(4%R, [RtoC 1])].
Definition tg_eig : eigensolver := fun nv M => if vecs_dec M tg_D then tg_ps else if vecs_dec M tg_D2 then tg_ps2 else [].
Definition tg_or : groracles := mkGOr tg_eig argsort.
Definition tg_p : gparams := mkGP [2; 2] 0 [5; 5] None None None None 3.
Definition tg_v : vec := [RtoC gs_s; RtoC gs_s].
Definition tg_O : COp := mkCOp tg_v tg_B Pauli.
Definition tg_O2 : COp := mkCOp [RtoC gs_s] tg_B2 Pauli.
Lemma tg_std_H : std_op Pauli tg_H.
Proof.
  split; [apply (good_op_intro Pauli [gadd g1 g1; g1] [sZ1; tg_X2]); try reflexivity; intros s [<-|[<-|[]]]; [apply ok_Z1 | apply tg_okX2]|]. intros s [<-|[<-|[]]]; left; reflexivity.
Qed.
Lemma tg_std_init : std_cop Pauli tg_init.
Proof.
  split; [|intros s [<-|[<-|[]]]; left; reflexivity]. split; [apply (built_new [sX1; sZ2]); reflexivity|]. split; [reflexivity|]. split; [reflexivity|].
  intros s [<-|[<-|[]]]; [apply ok_X1 | apply ok_Z2].
Qed.
Lemma tg_cases nv M : tg_eig nv M = tg_ps /\ M = tg_D \/ tg_eig nv M = tg_ps2 /\ M = tg_D2 \/ tg_eig nv M = [].
Proof. unfold tg_eig. destruct (vecs_dec M tg_D); auto. destruct (vecs_dec M tg_D2); auto. Qed.
Lemma tg_hit nv : tg_eig nv tg_D = tg_ps.
Proof. unfold tg_eig. destruct (vecs_dec tg_D tg_D); congruence. Qed.
Lemma tg_hit2 nv : tg_eig nv tg_D2 = tg_ps2.
Proof. unfold tg_eig. destruct (vecs_dec tg_D2 tg_D) as [F|]; [discriminate F|]. destruct (vecs_dec tg_D2 tg_D2); congruence. Qed.
Lemma tg_real : real_solver tg_eig.
Proof.
  intros nv M l v _ Hin. destruct (tg_cases nv M) as [[E ->]|[[E ->]|E]]; rewrite E in Hin; [destruct Hin as [F|[F|[]]] | destruct Hin as [F|[]] | destruct Hin];
    injection F as <- <-; (split; [reflexivity|]); (split; [intros z [<-|Hz]; [reflexivity | try destruct Hz as [<-|[]]; try destruct Hz; reflexivity]|]);
    (split; [unfold norm2c; cbn; lra|]); cbn; unfold csum; cbn; repeat (match goal with |- _ :: _ = _ :: _ => f_equal end); apply injective_projections; cbn; ring.
Qed.
Lemma tg_orth : orthonormal_solver tg_eig.
Proof.
  intros nv M _. destruct (tg_cases nv M) as [[-> _]|[[-> _]| ->]]; split.
  - intros v [<-|[<-|[]]]; apply C_ext; cbn; ring.
  - intros [|[|i]] [|[|j]] u v Ei Ej Hij; cbn in Ei, Ej; try congruence; try (destruct i; discriminate); try (destruct j; discriminate);
      injection Ei as <-; injection Ej as <-; apply C_ext; cbn; ring.
  - intros v [<-|[]]; apply C_ext; cbn; ring.
  - intros [|i] [|j] u v Ei Ej Hij; cbn in Ei, Ej; try congruence; try (destruct i; discriminate); destruct j; discriminate.
  - intros v [].
  - intros [|i] j u v Ei; discriminate.
Qed.
Lemma tg_complete : complete_solver tg_eig.
Proof.
  intros M w _ Hne Lw. destruct (tg_cases None M) as [[E ->]|[[E ->]|E]]; rewrite ?E; [| |exfalso; apply Hne; exact E].
  - destruct w as [|a [|b [|c w]]]; try discriminate. change (length tg_D) with 2. cbn [map snd tg_ps].
    replace [a; b] with (vadd (vscale b [RtoC 0; RtoC 1]) (vadd (vscale a [RtoC 1; RtoC 0]) (vzero 2))) by (cbn; repeat f_equal; ring).
    apply span_add; [left; auto|]. apply span_add; [right; left; auto|]. apply span_zero.
  - destruct w as [|a [|b w]]; try discriminate. change (length tg_D2) with 1. cbn [map snd tg_ps2].
    replace [a] with (vadd (vscale a [RtoC 1]) (vzero 1)) by (cbn; repeat f_equal; ring).
    apply span_add; [left; auto|]. apply span_zero.
Qed.
Definition tg_L1 := Eval vm_compute in fst (fst (ex_get (explore tg_B tg_H cache_empty None))).
Definition tg_E1 := Eval vm_compute in snd (fst (ex_get (explore tg_B tg_H cache_empty None))).
Definition tg_x1 := Eval vm_compute in snd (ex_get (explore tg_B tg_H cache_empty None)).
Definition tg_L2 := Eval vm_compute in fst (fst (ex_get (explore tg_A tg_H tg_x1 None))).
Definition tg_E2 := Eval vm_compute in snd (fst (ex_get (explore tg_A tg_H tg_x1 None))).
Definition tg_x := Eval vm_compute in snd (ex_get (explore tg_A tg_H tg_x1 None)).
Definition tg_L3 := Eval vm_compute in fst (fst (ex_get (explore tg_B tg_H tg_x None))).
Definition tg_E3 := Eval vm_compute in snd (fst (ex_get (explore tg_B tg_H tg_x None))).
Definition tg_L4 := Eval vm_compute in fst (fst (ex_get (explore tg_B2 tg_H tg_x None))).
Definition tg_E4 := Eval vm_compute in snd (fst (ex_get (explore tg_B2 tg_H tg_x None))).
Definition tg_L5 := Eval vm_compute in fst (fst (ex_get (explore tg_A2 tg_H tg_x None))).
Definition tg_E5 := Eval vm_compute in snd (fst (ex_get (explore tg_A2 tg_H tg_x None))).
Lemma tg_e1 : explore tg_B tg_H cache_empty None = Ok (tg_L1, tg_E1, tg_x1). Proof. vm_compute. reflexivity. Qed.
Lemma tg_e2 : explore tg_A tg_H tg_x1 None = Ok (tg_L2, tg_E2, tg_x). Proof. vm_compute. reflexivity. Qed.
Lemma tg_e3 : explore tg_B tg_H tg_x None = Ok (tg_L3, tg_E3, tg_x). Proof. vm_compute. reflexivity. Qed.
Lemma tg_e4 : explore tg_B2 tg_H tg_x None = Ok (tg_L4, tg_E4, tg_x). Proof. vm_compute. reflexivity. Qed.
Lemma tg_e5 : explore tg_A2 tg_H tg_x None = Ok (tg_L5, tg_E5, tg_x). Proof. vm_compute. reflexivity. Qed.
Lemma tg_cols1 : dense_cols tg_L3 = [[(0, -4)%R; RtoC 0]; [RtoC 0; (0, 2)%R]].
Proof. unfold dense_cols. cbn -[Q2R RtoC]. unfold to_C. cbn -[RtoC]. unfold Q2R, RtoC. cbn. repeat f_equal; lra. Qed.
Lemma tg_cols2 : dense_cols tg_L4 = [[(0, 2)%R]].
Proof. unfold dense_cols. cbn -[Q2R RtoC]. unfold to_C. cbn -[RtoC]. unfold Q2R, RtoC. cbn. repeat f_equal; lra. Qed.
Lemma tg_matrix : rreal (gram (dense_cols tg_L3)) = tg_D.
Proof. rewrite tg_cols1. unfold rreal, tg_D, gram. cbn. unfold csum. cbn. repeat (match goal with |- _ :: _ = _ :: _ => f_equal end); apply injective_projections; cbn; ring. Qed.
Lemma tg_matrix2 : rreal (gram (dense_cols tg_L4)) = tg_D2.
Proof. rewrite tg_cols2. unfold rreal, tg_D2, gram. cbn. unfold csum. cbn. repeat (match goal with |- _ :: _ = _ :: _ => f_equal end); apply injective_projections; cbn; ring. Qed.
Lemma tg_grow : grow_commutators tg_or tg_H [tg_H] 2 tg_B tg_init cache_empty = Ok (tg_B, tg_x).
Proof.
  unfold grow_commutators. rewrite tg_e1. cbn [rbind].
  change (negb (length (c_coeffs tg_init) =? sm_cols tg_L1)) with false. cbv beta iota zeta.
  assert (Ev : rows_vec (dense_rows tg_L1) (c_coeffs tg_init) = [(0, -4)%R; (0, 2)%R]).
  { unfold rows_vec, dense_rows. cbn -[Q2R RtoC]. unfold to_C, csum. cbn -[RtoC]. unfold Q2R, RtoC. cbn. repeat (match goal with |- _ :: _ = _ :: _ => f_equal end); apply injective_projections; cbn; field. }
  rewrite Ev.
  assert (El : largest_first tg_or [(0, -4)%R; (0, 2)%R] = [0; 1]).
  { assert (C4 : Cmod (0, -4)%R = 4%R) by (unfold Cmod; cbn; replace (_ + _)%R with (4 * 4)%R by ring; apply sqrt_square; lra).
    assert (C2 : Cmod (0, 2)%R = 2%R) by (unfold Cmod; cbn; replace (_ + _)%R with (2 * 2)%R by ring; apply sqrt_square; lra).
    unfold largest_first. cbn [map]. rewrite C4, C2. cbn. destruct (Rle_lt_dec _ _); [lra|reflexivity]. }
  rewrite El. cbn [length Nat.min firstn].
  change (take (b_strings tg_E1) [0; 1]) with (Ok [sY1; tg_Y2]). cbn [rbind]. change (basis_new [sY1; tg_Y2]) with (Ok tg_A). cbn [rbind].
  change (take [(0, -4)%R; (0, 2)%R] [0; 1]) with (Ok [(0, -4)%R; (0, 2)%R]). cbn [rbind rfold]. unfold grow_com. cbn [snd fst]. rewrite tg_e2. cbn [rbind]. cbv beta iota zeta.
  set (v := rows_vec (dense_rows tg_L2) _). assert (Eu : exists u w, v = [u; w]) by (do 2 eexists; reflexivity). destruct Eu as (u & w & Eu). rewrite Eu. clear v Eu.
  assert (El2 : largest_first tg_or [u; w] = [0; 1] \/ largest_first tg_or [u; w] = [1; 0]) by (unfold largest_first; cbn; destruct (Rle_lt_dec _ _); auto).
  destruct El2 as [-> | ->]; reflexivity.
Qed.
Lemma tg_grow2 : grow_commutators tg_or tg_H [tg_H] 2 tg_B2 tg_O2 tg_x = Ok (tg_B2, tg_x).
Proof.
  unfold grow_commutators. rewrite tg_e4. cbn [rbind].
  change (negb (length (c_coeffs tg_O2) =? sm_cols tg_L4)) with false. cbv beta iota zeta.
  set (v := rows_vec (dense_rows tg_L4) _). assert (Ev : exists z, v = [z]) by (eexists; reflexivity). destruct Ev as [z Ez]. rewrite Ez. clear v Ez.
  change (largest_first tg_or [z]) with [0]. cbn [length Nat.min firstn].
  change (take (b_strings tg_E4) [0]) with (Ok [tg_Y2]). cbn [rbind]. change (basis_new [tg_Y2]) with (Ok tg_A2). cbn [rbind].
  change (take [z] [0]) with (Ok [z]). cbn [rbind rfold]. unfold grow_com. cbn [snd fst]. rewrite tg_e5. cbn [rbind]. cbv beta iota zeta.
  set (v := rows_vec (dense_rows tg_L5) _). assert (Eu : exists u, v = [u]) by (eexists; reflexivity). destruct Eu as (u & Eu). rewrite Eu. clear v Eu.
  reflexivity.
Qed.
Lemma tg_find k : find_vectors tg_or (with_vecs tg_p k) [tg_H] tg_B tg_x = Ok (tg_ps, tg_x).
Proof.
  unfold find_vectors. cbn [rfold]. unfold com_step. rewrite tg_e3. cbn [rbind]. rewrite tg_matrix. change (basis_len tg_B) with 2.
  rewrite (radd_zero 2) by (try reflexivity; intros v [<-|[<-|[]]]; reflexivity).
  cbn [gp_orth tg_p with_vecs gp_trans rbind]. change (2 <? 20) with true. cbn [orb rbind]. cbn [tg_or gr_eig]. rewrite tg_hit. reflexivity.
Qed.
Lemma tg_find2 k : find_vectors tg_or (with_vecs tg_p k) [tg_H] tg_B2 tg_x = Ok (tg_ps2, tg_x).
Proof.
  unfold find_vectors. cbn [rfold]. unfold com_step. rewrite tg_e4. cbn [rbind]. rewrite tg_matrix2. change (basis_len tg_B2) with 1.
  rewrite (radd_zero 1) by (try reflexivity; intros v [<-|[]]; reflexivity).
  cbn [gp_orth tg_p with_vecs gp_trans rbind]. change (1 <? 20) with true. cbn [orb rbind]. cbn [tg_or gr_eig]. rewrite tg_hit2. reflexivity.
Qed.
Lemma tg_sqrt2 : (sqrt 2 * gs_s = 1)%R.
Proof. unfold gs_s. apply Rinv_r. pose proof (sqrt_lt_R0 2). lra. Qed.
Lemma tg_fid : highest_fidelity_operator tg_init tg_ps tg_B = Ok (Some (tg_v, 10%R), 2%R).
Proof.
  pose proof gs_sq as Q. pose proof gs_pos as P.
  unfold highest_fidelity_operator. change (filter _ _) with [(RtoC 1, sX1); (RtoC 1, sZ2)].
  change (rmap _ [(RtoC 1, sX1); (RtoC 1, sZ2)]) with (Ok [(0, RtoC 1); (1, RtoC 1)]). cbn [rbind].
  change (fold_left _ [(0, RtoC 1); (1, RtoC 1)] (vzero (basis_len tg_B))) with [RtoC 1; RtoC 1]. cbv zeta. unfold tg_ps. cbn [fold_left snd fst].
  assert (O1 : vdot [RtoC 0; RtoC 1] [RtoC 1; RtoC 1] = RtoC 1) by (rewrite vdot_inner; apply C_ext; cbn; ring).
  assert (O2 : vdot [RtoC 1; RtoC 0] [RtoC 1; RtoC 1] = RtoC 1) by (rewrite vdot_inner; apply C_ext; cbn; ring).
  rewrite O1, O2.
  assert (Ew : vadd (vadd (vzero (basis_len tg_B)) (vscale (RtoC 1) [RtoC 0; RtoC 1])) (vscale (RtoC 1) [RtoC 1; RtoC 0]) = [RtoC 1; RtoC 1]) by (cbn; repeat f_equal; apply C_ext; cbn; ring).
  rewrite Ew. assert (En : vnorm [RtoC 1; RtoC 1] = sqrt 2) by (unfold vnorm; f_equal; cbn; ring).
  rewrite En, Cmod_1. destruct (Req_EM_T (sqrt 2) 0) as [F|_]; [pose proof (sqrt_lt_R0 2); lra|]. rewrite pow2_sqrt by lra. fold gs_s.
  rewrite !Rabs_pos_eq by lra. assert (E1 : vscale (RtoC gs_s) [RtoC 1; RtoC 1] = tg_v) by (unfold tg_v, vscale; cbn [map]; repeat f_equal; apply C_ext; cbn -[gs_s]; ring).
  rewrite E1. replace ((0 + 1 ^ 2 * 4 + 1 ^ 2 * 16) / 2)%R with 10%R by field. reflexivity.
Qed.
Lemma tg_fid2 : exists r, highest_fidelity_operator tg_O tg_ps2 tg_B2 = Ok (r, (/ 2)%R).
Proof.
  pose proof gs_sq as Q. pose proof gs_pos as P.
  unfold highest_fidelity_operator. change (filter _ _) with [(RtoC gs_s, sZ2)].
  change (rmap _ [(RtoC gs_s, sZ2)]) with (Ok [(0, RtoC gs_s)]). cbn [rbind].
  change (fold_left _ [(0, RtoC gs_s)] (vzero (basis_len tg_B2))) with [RtoC gs_s]. cbv zeta. unfold tg_ps2. cbn [fold_left snd fst].
  assert (O1 : vdot [RtoC 1] [RtoC gs_s] = RtoC gs_s) by (rewrite vdot_inner; apply C_ext; cbn -[gs_s]; ring). rewrite O1.
  assert (Ew : vadd (vzero (basis_len tg_B2)) (vscale (RtoC gs_s) [RtoC 1]) = [RtoC gs_s]) by (cbn -[gs_s]; repeat f_equal; apply C_ext; cbn -[gs_s]; ring).
  rewrite Ew. assert (En : vnorm [RtoC gs_s] = gs_s) by (unfold vnorm; cbn -[gs_s]; replace (_ + _)%R with (gs_s * gs_s)%R by ring; apply sqrt_square; lra).
  rewrite En. replace (gs_s ^ 2)%R with (/ 2)%R by (cbn -[gs_s]; lra). eexists. reflexivity.
Qed.
Lemma tg_truncate : gtruncate tg_or tg_B [RtoC 0; RtoC 1] 0 5 = Ok tg_B2.
Proof.
  unfold gtruncate.
  assert (E0 : lt_dec 0 (Cmod (RtoC 0)) = false) by (apply not_true_iff_false; rewrite lt_dec_true, Cmod_0; lra).
  assert (E1 : lt_dec 0 (Cmod (RtoC 1)) = true) by (apply lt_dec_true; rewrite Cmod_1; lra).
  assert (El : largest_first tg_or [RtoC 0; RtoC 1] = [0; 1] \/ largest_first tg_or [RtoC 0; RtoC 1] = [1; 0]).
  { unfold largest_first. cbn. destruct (Rle_lt_dec _ _); auto. }
  destruct El as [-> | ->]; cbn [rmap nth_error of_option rbind filter snd]; rewrite E0, E1; reflexivity.
Qed.
Lemma tg_anti : grow_anticommutators tg_or 0 tg_init tg_B = Ok tg_B.
Proof.
  unfold grow_anticommutators. cbn [c_coeffs tg_init].
  assert (El : largest_first tg_or [RtoC 1; RtoC 1] = [0; 1] \/ largest_first tg_or [RtoC 1; RtoC 1] = [1; 0]) by (unfold largest_first; cbn; destruct (Rle_lt_dec _ _); auto).
  destruct El as [-> | ->]; reflexivity.
Qed.
(** The state after the first step, and after every further iteration. *)
Definition tg_st (k : nat) : tstate := mkT (mkG tg_B2 tg_O2 tg_x [tg_O] [10%R] tg_O (Some 10%R) 0 false) k.
Lemma tg_step0 tf k : match tf with Some m => (m <= 2)%R | None => True end ->
  target_step tg_or tg_p 0 tg_H [tg_H] tg_init tf 0 (mkT (mkG tg_B tg_init cache_empty [] [] tg_init None 0 false) k) = Ok (tg_st k, true).
Proof.
  intros Htf. unfold target_step. cbn [t_g t_vecs g_basis g_op g_cache]. cbv zeta. change (of_option IndexError (nth_error (gp_nH tg_p) 0)) with (Ok 2). change (gp_nO tg_p) with 0. change (gp_trans tg_p) with (@None (list rule)). cbn [rbind]. rewrite tg_grow. cbn [rbind].
  rewrite tg_anti. cbn [rbind]. rewrite tg_find. cbn [rbind Nat.eqb]. rewrite tg_fid. cbn [rbind].
  assert (Et : too_low tf 2 = false) by (destruct tf; cbn; auto; apply not_true_iff_false; rewrite lt_dec_true; lra). rewrite Et. cbn [andb of_option rbind].
  cbn [worse g_bestn gp_minrel tg_p improves g_thr]. change (cop_new tg_v (b_strings tg_B) None) with (Ok tg_O). cbn [rbind gp_sizes nth_error of_option tg_ps].
  cbn [gp_sizes tg_p of_option rbind]. rewrite tg_truncate. reflexivity.
Qed.
Lemma tg_step1 k : target_step tg_or tg_p 0 tg_H [tg_H] tg_init (Some (9 / 10)%R) 1 (tg_st k) = Ok (tg_st (S k), false).
Proof.
  unfold target_step, tg_st. cbn [t_g t_vecs g_basis g_op g_cache]. cbv zeta. change (of_option IndexError (nth_error (gp_nH tg_p) 1)) with (Ok 2). change (gp_nO tg_p) with 0. change (gp_trans tg_p) with (@None (list rule)). cbn [rbind]. rewrite tg_grow2. cbn [rbind].
  change (grow_anticommutators tg_or 0 tg_O2 tg_B2) with (Ok tg_B2). cbn [rbind]. rewrite tg_find2. cbn [rbind Nat.eqb g_best].
  destruct tg_fid2 as (r & ->). cbn [rbind].
  assert (Et : too_low (Some (9 / 10)%R) (/ 2) = true) by (cbn; apply lt_dec_true; lra). rewrite Et. reflexivity.
Qed.
Lemma tg_forever : forall k j, target_loop tg_or tg_p 0 tg_H [tg_H] tg_init (Some (9 / 10)%R) k 2 1 (tg_st j) = Ok None.
Proof.
  induction k as [|k IH]; intros j; [reflexivity|]. cbn [target_loop Nat.leb orb]. cbn [tg_st t_g g_end]. fold (tg_st j). rewrite tg_step1. cbn [rbind]. apply IH.
Qed.

Example C103_example : std_op Pauli tg_H /\ std_cop Pauli tg_init /\ real_vec (c_coeffs tg_init) /\ explored Pauli tg_H cache_empty /\
  real_solver (gr_eig tg_or) /\ orthonormal_solver (gr_eig tg_or) /\ complete_solver (gr_eig tg_or) /\ sorts_reals (gr_sort tg_or) /\
  selected_ci_target tg_or tg_p 0 tg_init [tg_H] tg_init None 1 1 0 cache_empty = Ok (Some (tg_O, Some 10%R, [tg_O], [10%R])).
Proof.
  split; [apply tg_std_H|]. split; [apply tg_std_init|]. split; [intros z [<-|[<-|[]]]; reflexivity|]. split; [constructor|].
  split; [apply tg_real|]. split; [apply tg_orth|]. split; [apply tg_complete|]. split; [apply argsort_sorts|].
  unfold selected_ci_target. change (forallb _ (b_strings (o_basis tg_H))) with false. change (basis_iadd basis_empty (c_basis tg_init)) with tg_B.
  cbn [target_loop Nat.leb orb t_g g_end]. rewrite (tg_step0 None) by exact I. reflexivity.
Qed.

(** C104: "the search ends" is false with [target_fidelity]: when the fidelity is too low after
    the first step, [num_vecs] is increased; but for fewer than 20 strings all vectors are used
    already, and the same iteration is repeated forever. *)
Theorem C104_refuted : ~ (forall ty H Or p fuel init tgt m n thr x,
  ty <> Fermion -> std_op ty H -> std_cop ty init -> std_cop ty tgt -> real_vec (c_coeffs tgt) -> explored ty H x ->
  real_solver (gr_eig Or) -> orthonormal_solver (gr_eig Or) -> complete_solver (gr_eig Or) -> sorts_reals (gr_sort Or) -> gp_trans p = None -> gp_orth p = None ->
  (0 < m < 1)%R -> exists k, selected_ci_target Or p fuel init [H] tgt (Some m) k n thr x <> Ok None).
Proof.
  intros F. destruct C103_example as (E1 & E2 & E3 & E4 & E5 & E6 & E7 & E8 & _).
  destruct (F Pauli tg_H tg_or tg_p 0 tg_init tg_init (9 / 10)%R 2 0%R cache_empty) as (k & Hk); auto; try discriminate; try lra.
  apply Hk. unfold selected_ci_target. change (forallb _ (b_strings (o_basis tg_H))) with false. change (basis_iadd basis_empty (c_basis tg_init)) with tg_B.
  destruct k as [|k]; [reflexivity|]. cbn [target_loop Nat.leb orb t_g g_end]. rewrite (tg_step0 (Some (9 / 10)%R)) by lra. cbn [rbind]. rewrite tg_forever. reflexivity.
Qed.
Print Assumptions C104_refuted.
