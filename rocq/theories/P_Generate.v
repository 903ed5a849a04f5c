(** Properties C82, C86, C87: the noncumulative mode of SymmetricOperatorGenerator. *)
From Coq Require Import String List ZArith Bool Arith Lia Reals QArith Qcanon Lra.
From Coquelicot Require Import Complex.
From Verif Require Import GC Exn M_OpString M_Tools M_Algebra M_Basis M_OpAlg M_Transform M_LinAlg M_Core
  S_Alg S_Den S_Basis S_Built S_OpAlg S_Transform S_RScal S_CFock S_CScal S_LinAlg S_Core S_Invariant S_Sparsify S_Generate
  L_PropStr L_Alg L_StrAlg L_Basis L_OpAlg L_PropOpAlg L_CScal L_CFock L_LinAlg L_Inter L_Herm L_Core L_Commuting L_Trans1 L_Trans2 L_Trans5 L_Trans6 L_PartIso L_Invariant3 L_Sparsify L_Generate L_Generate2 L_LU P_Core P_Invariant P_Sparsify.
Import ListNotations.
Local Open Scope nat_scope.
Local Open Scope alg_scope.

(** C82: with an exact eigensolver, entry k of projected_output_operators is an orthonormal basis of
    exactly the operators that have the symmetries 0,...,k, and entry k of output_operators of the
    operators with the symmetry k; with or without sparsification. *)
Theorem C82_symmetric : forall ty Or b syms sp tol, good_cbasis ty b -> (0 < tol)%R ->
  (forall y, In y syms -> good_sym ty Or b y /\ y_num y = None) -> exact_run Or b syms tol ->
  (sp = true -> (forall V, vectors (cbasis_len b) V -> orthonormal V -> lu_columns (cbasis_len b) V (or_lu Or V)) /\ forall l, sorts l (or_argsort Or l)) ->
  exists st, generate_noncumulative Or b syms sp false tol n_fresh = Ok (Some st) /\
    length (n_pout st) = length syms /\ length (n_out st) = length syms /\
    (forall k vs, nth_error (n_pout st) k = Some vs \/ nth_error (n_out st) k = Some vs -> vectors (cbasis_len b) vs /\ orthonormal vs) /\
    forall (A : StarAlg) (S : RScal A) (g : op -> Z -> A), rep ty g -> ~ (@aone A == azero) -> forall k vs v, length v = cbasis_len b ->
      (nth_error (n_pout st) k = Some vs ->
         (span (cbasis_len b) vs v <-> forall i y, i <= k -> nth_error syms i = Some y -> satisfies S g b y v)) /\
      (nth_error (n_out st) k = Some vs -> (span (cbasis_len b) vs v <-> forall y, nth_error syms k = Some y -> satisfies S g b y v)).
Proof.
  intros ty Or b syms sp tol Hb Ht Hg HE Hsp.
  destruct (generate_ok ty Or b tol Hb Ht syms Hg HE) as (st & Es & G1 & G2 & G3 & G4 & G5).
  set (n := cbasis_len b) in *.
  assert (St : exists st', generate_noncumulative Or b syms sp false tol n_fresh = Ok (Some st') /\ n_out st' = n_out st /\ length (n_pout st') = length syms /\
                 forall k vs, nth_error (n_pout st') k = Some vs -> basis_of_kernels Or b tol syms k vs).
  { unfold generate_noncumulative in *. fold n in Es |- *. destruct (rfold (n_generate Or b tol) syms n_fresh) as [st1|e]; cbn [rbind] in *; [|discriminate].
    destruct (ofold (n_project Or n tol) (combine (seq 0 (length syms)) syms) st1) as [[s|]|e]; cbn [rbind] in *; try discriminate. injection Es as ->.
    destruct sp; cbn [rbind]; [|exists st; auto]. destruct (Hsp eq_refl) as [Hlu Has].
    destruct (sparsify_all Or n Hlu Has (basis_of_kernels Or b tol syms)) with (l := seq 0 (length syms)) (st := st) as (st' & E' & (S1 & S2 & S3 & S4) & L' & B'); auto.
    - intros k vs ws (B1 & B2 & B3) W1 W2 W3. split; auto. split; auto. intros v. transitivity (span n vs v); [apply W3 | apply B3].
    - intros k vs (B1 & B2 & _). auto.
    - intros i Hi. apply in_seq in Hi. lia.
    - rewrite E'. cbn [rbind]. exists st'. split; auto. split; auto. split; auto. rewrite L'. auto. }
  destruct St as (st' & E' & O' & L' & B'). exists st'. split; auto. split; auto. split; [rewrite O'; auto|].
  assert (Hf : forall k vs, nth_error (n_out st) k = Some vs -> exists y f, nth_error syms k = Some y /\ search Or b y tol = Ok f /\ vs = f_ops f /\ good_sym ty Or b y /\ y_num y = None /\
    exact_pairs tol (f_super f) (combine (f_evals f) (f_evecs f))).
  { intros k vs Hk. assert (Lk : k < length syms) by (rewrite <- G2; apply nth_error_Some; congruence).
    destruct (nth_error syms k) as [y|] eqn:Ey; [|apply nth_error_None in Ey; lia]. destruct (Hg y (nth_error_In _ _ Ey)) as [Gy Ny].
    destruct (search_ok ty Or b tol Hb Ht y Gy Ny) as (f & Ef & _). exists y, f. destruct (G5 k y f Ey Ef) as [X _]. rewrite Hk in X. injection X as ->.
    split; auto. split; auto. split; auto. split; auto. split; auto. apply (proj1 HE y f); auto. eapply nth_error_In; eauto. }
  rewrite O'. split.
  - intros k vs [Hk|Hk]; [destruct (B' k vs Hk) as (B1 & B2 & _); auto|]. destruct (Hf k vs Hk) as (y & f & Ey & Ef & -> & Gy & Ny & Ep).
    destruct (search_ok ty Or b tol Hb Ht y Gy Ny) as (f' & Ef' & HH & Hk' & _). rewrite Ef in Ef'. injection Ef' as <-. destruct (Hk' Ep) as (V & O & _). auto.
  - intros A S g Hr Hn k vs v Lv. split; intros Hk.
    + destruct (B' k vs Hk) as (B1 & B2 & B3). fold n in B3. rewrite B3. split.
      * intros [_ Hv] i y Hi Hy. destruct (Hg y (nth_error_In _ _ Hy)) as [Gy Ny]. destruct (search_ok ty Or b tol Hb Ht y Gy Ny) as (f & Ef & _ & _ & M).
        apply (M A S g Hr Hn v Lv). apply (Hv i y f); auto.
      * intros Hv. split; auto. intros i y f Hi Hy Ef. destruct (Hg y (nth_error_In _ _ Hy)) as [Gy Ny]. destruct (search_ok ty Or b tol Hb Ht y Gy Ny) as (f' & Ef' & _ & _ & M).
        rewrite Ef in Ef'. injection Ef' as <-. apply (M A S g Hr Hn v Lv). apply (Hv i y); auto.
    + destruct (Hf k vs Hk) as (y & f & Ey & Ef & -> & Gy & Ny & Ep). destruct (search_ok ty Or b tol Hb Ht y Gy Ny) as (f' & Ef' & _ & Hs & M).
      rewrite Ef in Ef'. injection Ef' as <-. destruct (Hs Ep) as (_ & _ & Sp). fold n in Sp. rewrite Sp. fold n in M. rewrite (M A S g Hr Hn v Lv). rewrite Ey. split.
      * intros [_ Hv] z Ez. injection Ez as <-. auto.
      * intros Hv. split; auto.
Qed.
Print Assumptions C82_symmetric.

(** Non-vacuity: X_1 and Z_1; both change sign under time reversal, only Z_1 commutes with Z_1. *)
Definition c82_e1 : vec := [RtoC 1; RtoC 0].
Definition c82_e2 : vec := [RtoC 0; RtoC 1].
Definition c82_h : C := RtoC (/ sqrt 2).
Definition c82_nh : C := RtoC (- / sqrt 2).
(** An eigensolver for the matrices of these examples. *)
Definition c82_eig (nv : option nat) (D : list vec) : list (R * vec) :=
  match D with
  | [_] => [(0%R, [RtoC 1])]
  | [a :: _; _] => if Req_EM_T (fst a) 4 then c78_pairs else if Req_EM_T (fst a) (-1) then [((-1)%R, c82_e1); ((-1)%R, c82_e2)] else [(0%R, c82_e1); (0%R, c82_e2)]
  | [_; _; _] => [(0%R, [c82_h; RtoC 0; c82_h]); (1%R, [RtoC 0; RtoC 1; RtoC 0]); (2%R, [c82_h; RtoC 0; c82_nh])]
  | [_; _; _; _] => [(0%R, [c82_h; RtoC 0; c82_h; RtoC 0]); (0%R, [RtoC 0; c82_h; RtoC 0; c82_h]);
                     (2%R, [c82_h; RtoC 0; c82_nh; RtoC 0]); (2%R, [RtoC 0; c82_h; RtoC 0; c82_nh])]
  | _ => []
  end.
Definition c82_oracles : oracles := mkOracles c82_eig (map (map Cconj)) (some_lu 2) sort_index.
Definition c82_basis : cbasis := CBasis c78_basis.
Definition c82_y0 : entry_sym := mkSym (SymTransformation time_reversal) GAnticommutator None.
Definition c82_y1 : entry_sym := mkSym (SymOperator c78_op) GCommutator None.

Lemma c82_hh : (/ sqrt 2 * / sqrt 2 = / 2)%R.
Proof. rewrite <- Rinv_mult, sqrt_sqrt by lra. reflexivity. Qed.
Lemma c82_test r : lt_dec (Rabs r) tol10r = true <-> (Rabs r < tol10r)%R.
Proof. apply lt_dec_true. Qed.
Lemma c82_small : lt_dec (Rabs 0) tol10r = true.
Proof. apply lt_dec_true. rewrite Rabs_R0. apply tol10_pos. Qed.
Lemma c82_large r : (1 <= r)%R -> lt_dec (Rabs r) tol10r = false.
Proof. intros H. apply not_true_iff_false. rewrite lt_dec_true, Rabs_right by lra. unfold tol10r. simpl. lra. Qed.
Lemma c82_str s : In s (b_strings c78_basis) -> string_ok Pauli s /\ canonical s.
Proof.
  intros [<-|[<-|[]]]; (split; [apply ok_X1 || apply ok_Z1|]); (split; [repeat constructor | left; reflexivity]).
Qed.
Lemma c82_good y : In y [c82_y0; c82_y1] -> good_sym Pauli c82_oracles c82_basis y /\ y_num y = None.
Proof.
  intros [<-|[<-|[]]]; (split; [|reflexivity]).
  - destruct (proj1 (C83_transformations (b_strings c78_basis)) Pauli ltac:(discriminate) c82_str) as [H1 H2]. cbn. split; [|exists (-1)%R; reflexivity].
    split; [apply c78_good_basis|]. split; [intros s Hs; apply c82_str; auto|]. split; [exact I|]. split; [exact H1|]. split; [exact H2|]. exact conj_pinv.
  - cbn. split; [discriminate|]. split; [apply c78_good_op | discriminate].
Qed.
Lemma c82_columns : symmetry_columns (map (map Cconj)) c82_basis time_reversal = Ok [[RtoC (-1); RtoC 0]; [RtoC 0; RtoC (-1)]].
Proof.
  unfold symmetry_columns, c82_basis. match goal with |- context [symmetry_matrix ?b ?T] => let r := eval vm_compute in (symmetry_matrix b T) in
    replace (symmetry_matrix b T) with r by (vm_compute; reflexivity) end.
  cbn [rbind]. unfold dense_cols. cbn -[Q2R RtoC]. unfold to_C. cbn -[RtoC]. unfold Q2R, RtoC. cbn.
  repeat f_equal; lra.
Qed.
Definition c82_zero2 : list vec := [[RtoC 0; RtoC 0]; [RtoC 0; RtoC 0]].
Lemma c82_search0 : search c82_oracles c82_basis c82_y0 tol10r = Ok (mkFound [c82_e1; c82_e2] c82_zero2 [(1 - -1 * -1)%R; (1 - -1 * -1)%R] [c82_e1; c82_e2] false).
Proof.
  unfold search, c82_y0. cbn [y_sym y_mode y_num or_eig or_pinv c82_oracles]. unfold invariant_operators. rewrite c82_columns. cbn [rbind gsign].
  change (cbasis_len c82_basis) with 2.
  assert (EH : hermitian_rows 2 [[RtoC (-1); RtoC 0]; [RtoC 0; RtoC (-1)]] = [[RtoC (-1); RtoC 0]; [RtoC 0; RtoC (-1)]]) by (unfold hermitian_rows, entry; cbn [seq map nth]; cvec).
  rewrite EH. unfold c82_eig. cbn [fst RtoC]. destruct (Req_EM_T (-1) 4) as [E|_]; [lra|]. destruct (Req_EM_T (-1) (-1)) as [_|E]; [|lra].
  unfold keep. cbn [filter fst snd map]. replace (-1 - -1)%R with 0%R by lra. rewrite c82_small. cbn [map snd].
  assert (E1 : one_minus 2 (-1) [[RtoC (-1); RtoC 0]; [RtoC 0; RtoC (-1)]] = c82_zero2) by (unfold one_minus, c82_zero2; cbn [seq map nth Nat.eqb]; cvec).
  f_equal. f_equal. exact E1.
Qed.
Lemma c82_search1 : search c82_oracles c82_basis c82_y1 tol10r = Ok (mkFound [c82_e2] c78_super [0%R; 4%R] [c82_e2; c82_e1] false).
Proof.
  unfold search, c82_y1. cbn [y_sym y_mode y_num or_eig or_pinv c82_oracles]. unfold commuting_operators, c82_basis. rewrite c78_columns. cbn [rbind]. rewrite c78_gram.
  unfold c82_eig, c78_super at 1 2 3 4. cbn [fst RtoC]. destruct (Req_EM_T 4 4) as [_|E]; [|lra].
  unfold keep, c78_pairs. cbn [filter fst snd map]. rewrite c82_small, (c82_large 4) by lra. reflexivity.
Qed.

Definition c82_d3 : list vec := [[RtoC 1; RtoC 0; RtoC (-1)]; [RtoC 0; RtoC 1; RtoC 0]; [RtoC (-1); RtoC 0; RtoC 1]].
Definition c82_d4 : list vec := [[RtoC 1; RtoC 0; RtoC (-1); RtoC 0]; [RtoC 0; RtoC 1; RtoC 0; RtoC (-1)]; [RtoC (-1); RtoC 0; RtoC 1; RtoC 0]; [RtoC 0; RtoC (-1); RtoC 0; RtoC 1]].
Ltac crows := repeat (match goal with |- _ :: _ = _ :: _ => f_equal end); try (apply injective_projections; cbn; unfold csum; cbn; lra).
Lemma c82_gram3 : gram (hstack_neg [c82_e2] [c82_e1; c82_e2]) = c82_d3.
Proof. unfold gram, hstack_neg, c82_d3, c82_e1, c82_e2. cbn [map app vscale vdot]. crows. Qed.
Lemma c82_gram4 : gram (hstack_neg [c82_e1; c82_e2] [c82_e1; c82_e2]) = c82_d4.
Proof. unfold gram, hstack_neg, c82_d4, c82_e1, c82_e2. cbn [map app vscale vdot]. crows. Qed.
Lemma c82_norm u : sqsum u = (/ 2)%R -> vnorm u = (/ sqrt 2)%R.
Proof.
  intros H. unfold vnorm. unfold sqsum in H. rewrite H. rewrite <- c82_hh. apply sqrt_square. apply Rlt_le, Rinv_0_lt_compat, sqrt_lt_R0. lra.
Qed.
Lemma c82_h_ne : (/ sqrt 2 <> 0)%R.
Proof. apply Rinv_neq_0_compat. intros E. pose proof (sqrt_lt_R0 2 ltac:(lra)). lra. Qed.
Lemma c82_s_ne : (sqrt 2 <> 0)%R.
Proof. intros E. pose proof (sqrt_lt_R0 2 ltac:(lra)). lra. Qed.
Definition c82_solver (D : list vec) : list vec := keep (fun e => lt_dec (Rabs e) tol10r) (c82_eig None D).
Lemma c82_inter3 : intersection c82_solver 2 2 [c82_e2] [c82_e1; c82_e2] = Ok (Some [c82_e2]).
Proof.
  unfold intersection. cbn [Nat.eqb negb]. rewrite c82_gram3. unfold c82_solver, c82_d3, c82_eig, keep. cbn [filter fst].
  rewrite c82_small, !c82_large by lra. cbn [map snd length firstn existsb].
  set (u := mat_vec 2 [c82_e2] [c82_h]). assert (Eu : u = [RtoC 0; c82_h]) by (unfold u, c82_e2, c82_h; cbn; crows).
  assert (N : vnorm u = (/ sqrt 2)%R) by (apply c82_norm; rewrite Eu; unfold sqsum, c82_h, RtoC; cbn; rewrite c82_hh; lra).
  rewrite N. destruct (Req_EM_T (/ sqrt 2) 0) as [E|_]; [destruct (c82_h_ne E)|]. cbn [orb]. do 3 f_equal.
  rewrite Eu. unfold vscale, c82_e2, c82_h. cbn [map]. assert (X := c82_s_ne). crows. apply injective_projections; cbn; field; auto.
Qed.
Lemma c82_inter4 : intersection c82_solver 2 2 [c82_e1; c82_e2] [c82_e1; c82_e2] = Ok (Some [c82_e1; c82_e2]).
Proof.
  unfold intersection. cbn [Nat.eqb negb]. rewrite c82_gram4. unfold c82_solver, c82_d4, c82_eig, keep. cbn [filter fst].
  rewrite c82_small, !c82_large by lra. cbn [map snd length firstn existsb].
  set (u := mat_vec 2 [c82_e1; c82_e2] [c82_h; RtoC 0]). assert (Eu : u = [c82_h; RtoC 0]) by (unfold u, c82_e1, c82_e2, c82_h; cbn; crows).
  set (w := mat_vec 2 [c82_e1; c82_e2] [RtoC 0; c82_h]). assert (Ew : w = [RtoC 0; c82_h]) by (unfold w, c82_e1, c82_e2, c82_h; cbn; crows).
  assert (N : vnorm u = (/ sqrt 2)%R) by (apply c82_norm; rewrite Eu; unfold sqsum, c82_h, RtoC; cbn; rewrite c82_hh; lra).
  assert (N' : vnorm w = (/ sqrt 2)%R) by (apply c82_norm; rewrite Ew; unfold sqsum, c82_h, RtoC; cbn; rewrite c82_hh; lra).
  rewrite N, N'. destruct (Req_EM_T (/ sqrt 2) 0) as [E|_]; [destruct (c82_h_ne E)|]. cbn [orb]. f_equal. f_equal.
  rewrite Eu, Ew. unfold vscale, c82_e1, c82_e2, c82_h. cbn [map]. assert (X := c82_s_ne). crows; crows; apply injective_projections; cbn; field; auto.
Qed.
Lemma c82_project1 : project_super [c82_e2] c78_super = [[RtoC 0]].
Proof. unfold project_super, c82_e2, c78_super. cbn. crows. Qed.
Lemma c82_project0 : project_super [c82_e1; c82_e2] c82_zero2 = c82_zero2.
Proof. unfold project_super, c82_e1, c82_e2, c82_zero2. cbn. crows; crows. Qed.

Definition c82_ev : R := (1 - -1 * -1)%R.
(** The states after one and after two symmetries. *)
Definition c82_st0 : nstate := mkN [c82_zero2] [[c82_ev; c82_ev]] [[c82_e1; c82_e2]] [[c82_e1; c82_e2]]
  [c82_zero2] [[c82_ev; c82_ev]] [[c82_e1; c82_e2]] [[c82_e1; c82_e2]] [].
Lemma c82_run0 : generate_noncumulative c82_oracles c82_basis [c82_y0] false false tol10r n_fresh = Ok (Some c82_st0).
Proof. unfold generate_noncumulative. cbn [rfold length seq combine]. unfold n_generate. rewrite c82_search0. reflexivity. Qed.
Lemma c82_run1 : exists st, generate_noncumulative c82_oracles c82_basis [c82_y0; c82_y1] false false tol10r n_fresh = Ok (Some st) /\
  n_pout st = [[c82_e1; c82_e2]; [c82_e2]].
Proof.
  unfold generate_noncumulative. cbn [rfold length seq combine]. unfold n_generate at 1. rewrite c82_search0. cbn [rbind]. unfold n_generate at 1. rewrite c82_search1. cbn [rbind].
  unfold ofold. cbn [rfold]. unfold n_project at 1. cbn [n_super n_evals n_evecs n_out n_psuper n_pevals n_pevecs n_pout n_inter n_fresh app nth_error of_option rbind Nat.eqb f_ops f_super f_evals f_evecs].
  cbn [rfold]. unfold n_project. cbn [n_super n_evals n_evecs n_out n_psuper n_pevals n_pevecs n_pout n_inter app nth_error of_option rbind Nat.eqb Nat.sub f_ops f_super].
  change (cbasis_len c82_basis) with 2. change (fun D : list vec => keep (fun e : R => lt_dec (Rabs e) tol10r) (or_eig c82_oracles None D)) with c82_solver.
  rewrite c82_inter3. cbn [rbind y_num c82_y1 or_eig c82_oracles]. rewrite c82_project1. unfold c82_eig. unfold keep. cbn [filter fst]. rewrite c82_small. cbn [map snd rbind].
  eexists. split; [reflexivity|]. cbn [n_pout]. do 3 f_equal. unfold c82_e2. cbn. crows.
Qed.

Lemma c82_pairs0 : exact_pairs tol10r c82_zero2 [(c82_ev, c82_e1); (c82_ev, c82_e2)].
Proof.
  replace c82_ev with 0%R by (unfold c82_ev; lra). split; [split|split].
  - intros l v [E|[E|[]]]; injection E as <- <-; (split; [reflexivity|]); (split; [intros E; injection E; lra|]); cbn; unfold csum; cbn; cvec.
  - intros [|a [|b [|c x]]] H; try discriminate. cbn [length c82_zero2 map snd].
    replace [a; b] with (zip_with Cplus (map (Cmult a) [RtoC 1; RtoC 0]) (zip_with Cplus (map (Cmult b) [RtoC 0; RtoC 1]) (repeat (RtoC 0) 2))).
    + apply span_add; [simpl; auto|]. apply span_add; [simpl; auto|]. apply span_zero.
    + cbn. cvec.
  - exact (units_orthonormal 2).
  - intros e [<-|[<-|[]]]; auto.
Qed.
Lemma c82_pairs1 : exact_pairs tol10r c78_super c78_pairs.
Proof.
  split; [apply c78_full|]. split.
  - apply (ortho_perm [c82_e1; c82_e2]); [apply Permutation.perm_swap | exact (units_orthonormal 2)].
  - intros e [<-|[<-|[]]]; auto. right. rewrite Rabs_right by (simpl; lra). unfold tol10r. simpl. lra.
Qed.
Lemma c82_pairs3 : exact_pairs tol10r c82_d3 (c82_eig None c82_d3).
Proof.
  assert (X := c82_hh). assert (Y := c82_h_ne).
  split; [split|split].
  - intros l v [E|[E|[E|[]]]]; injection E as <- <-; (split; [reflexivity|]); (split; [unfold c82_h, c82_nh; intros E; injection E; lra|]);
      unfold c82_h, c82_nh; cbn; unfold csum; cbn; cvec.
  - intros [|a [|b [|c [|d x]]]] H; try discriminate. cbn [length c82_d3 c82_eig map snd].
    replace [a; b; c] with (zip_with Cplus (map (Cmult (c82_h * (a + c))%C) [c82_h; RtoC 0; c82_h])
      (zip_with Cplus (map (Cmult b) [RtoC 0; RtoC 1; RtoC 0]) (zip_with Cplus (map (Cmult (c82_h * (a - c))%C) [c82_h; RtoC 0; c82_nh]) (repeat (RtoC 0) 3)))).
    + apply span_add; [simpl; auto|]. apply span_add; [simpl; auto|]. apply span_add; [simpl; auto|]. apply span_zero.
    + destruct a as [a1 a2], b as [b1 b2], c as [c1 c2]. unfold c82_h, c82_nh. set (h := (/ sqrt 2)%R) in *. clearbody h.
      pose proof (f_equal (Rmult a1) X). pose proof (f_equal (Rmult a2) X). pose proof (f_equal (Rmult c1) X). pose proof (f_equal (Rmult c2) X).
      cbn. repeat (match goal with |- _ :: _ = _ :: _ => f_equal end); apply injective_projections; cbn; nra.
  - cbn [c82_eig c82_d3 map snd]. unfold c82_h, c82_nh. split.
    + intros v [<-|[<-|[<-|[]]]]; cbn; apply injective_projections; cbn; nra.
    + intros [|[|[|i]]] [|[|[|j]]] v w; cbn [nth_error]; intros E1 E2 N; try (destruct i; discriminate); try (destruct j; discriminate); try congruence;
        injection E1 as <-; injection E2 as <-; cbn; apply injective_projections; cbn; nra.
  - intros e [<-|[<-|[<-|[]]]]; [left; reflexivity | right | right]; cbn; rewrite Rabs_right by lra; unfold tol10r; simpl; lra.
Qed.
Lemma c82_exact : exact_run c82_oracles c82_basis [c82_y0; c82_y1] tol10r.
Proof.
  split.
  - intros y f [<-|[<-|[]]] E.
    + rewrite c82_search0 in E. injection E as <-. apply c82_pairs0.
    + rewrite c82_search1 in E. injection E as <-. apply c82_pairs1.
  - intros [|z [|z' [|z'' s]]] y rest st prev f Es Eg Ep Ef; [| |exfalso|exfalso].
    + unfold generate_noncumulative in Eg. cbn in Eg. injection Eg as <-. discriminate.
    + cbn [app] in Es. injection Es as <- <- _. rewrite c82_run0 in Eg. injection Eg as <-. cbn in Ep. injection Ep as <-.
      rewrite c82_search1 in Ef. injection Ef as <-. cbn [f_ops f_super or_eig c82_oracles]. change (cbasis_len c82_basis) with 2. cbv zeta.
      rewrite c82_gram3. split; [apply c82_pairs3|]. intros P EP.
      change (intersection c82_solver 2 2 [c82_e2] [c82_e1; c82_e2] = Ok (Some P)) in EP.
      rewrite c82_inter3 in EP. injection EP as <-. rewrite c82_project1. cbn [c82_eig map snd]. split; [split|].
      * intros l v [E|[]]. injection E as <- <-. split; [reflexivity|]. split; [intros E; injection E; lra|]. cbn. unfold csum. cbn. cvec.
      * intros [|a [|b x]] H; try discriminate. cbn [map snd length].
        replace [a] with (zip_with Cplus (map (Cmult a) [RtoC 1]) (repeat (RtoC 0) 1)) by (cbn; cvec). apply span_add; [simpl; auto|]. apply span_zero.
      * exact (units_orthonormal 1).
    + apply (f_equal (@length _)) in Es. rewrite app_length in Es. cbn in Es. lia.
    + apply (f_equal (@length _)) in Es. rewrite app_length in Es. cbn in Es. lia.
Qed.
Example C82_example : good_cbasis Pauli c82_basis /\ (forall y, In y [c82_y0; c82_y1] -> good_sym Pauli c82_oracles c82_basis y /\ y_num y = None) /\
  exact_run c82_oracles c82_basis [c82_y0; c82_y1] tol10r /\
  (forall V, vectors 2 V -> orthonormal V -> lu_columns 2 V (or_lu c82_oracles V)) /\ (forall l, sorts l (or_argsort c82_oracles l)) /\
  exists st, generate_noncumulative c82_oracles c82_basis [c82_y0; c82_y1] false false tol10r n_fresh = Ok (Some st) /\
    n_pout st = [[c82_e1; c82_e2]; [c82_e2]].
Proof.
  split; [apply c78_good_basis|]. split; [apply c82_good|]. split; [apply c82_exact|]. split; [intros V HV _; apply some_lu_ok; auto|].
  split; [apply sort_index_ok | apply c82_run1].
Qed.

Lemma c82_not_span : ~ span 2 [c82_e2] c82_e1.
Proof.
  intros H. assert (Z : nth 0 c82_e1 (RtoC 0) = RtoC 0).
  { apply (span_entry 2 0 [c82_e2]); [intros v [<-|[]]; reflexivity | intros v [<-|[]]; reflexivity | exact H]. }
  cbn in Z. apply RtoC_inj in Z. lra.
Qed.
(** X_1 and Z_1 have the first symmetry; only Z_1 has the second. *)
Lemma c82_meaning (A : StarAlg) (S : RScal A) (g : op -> Z -> A) : rep Pauli g -> ~ (@aone A == azero) ->
  satisfies S g c82_basis c82_y0 c82_e1 /\ satisfies S g c82_basis c82_y0 c82_e2 /\ satisfies S g c82_basis c82_y1 c82_e2 /\ ~ satisfies S g c82_basis c82_y1 c82_e1.
Proof.
  intros Hr Hn. destruct C82_example as (Hb & Hg & HE & _ & _ & st & Es & Ep).
  destruct (C82_symmetric Pauli c82_oracles c82_basis [c82_y0; c82_y1] false tol10r Hb tol10_pos Hg HE ltac:(discriminate)) as (st' & Es' & _ & _ & _ & M).
  rewrite Es in Es'. injection Es' as <-. specialize (M A S g Hr Hn). rewrite Ep in M.
  assert (S1 : forall v, In v [c82_e1; c82_e2] -> span 2 [c82_e1; c82_e2] v) by (intros v Hv; apply span_member; [auto | destruct Hv as [<-|[<-|[]]]; reflexivity]).
  assert (M1 := proj1 (M 0%nat _ c82_e1 eq_refl) eq_refl). assert (M2 := proj1 (M 1%nat _ c82_e2 eq_refl) eq_refl). assert (M3 := proj1 (M 1%nat _ c82_e1 eq_refl) eq_refl).
  assert (Y0 : satisfies S g c82_basis c82_y0 c82_e1) by (apply (proj1 M1 (S1 c82_e1 ltac:(simpl; auto)) 0%nat); auto).
  assert (Z2 : span 2 [c82_e2] c82_e2) by (apply span_member; [left|]; reflexivity).
  split; auto. split; [apply (proj1 M2 Z2 0%nat); auto|]. split; [apply (proj1 M2 Z2 1%nat); auto|].
  intros Y1. apply c82_not_span. apply M3. intros [|[|i]] y Hi Hy; cbn in Hy; [injection Hy as <-; auto | injection Hy as <-; auto | destruct i; discriminate].
Qed.

(** C86: the claim is that orthogonalization=True only changes the bases of the spaces of
    projected_output_operators.  It is false: the first columns of the basis of a space are
    overwritten by the operators of the smaller space (core.py:424-425), without making sure that
    the remaining columns complete them.  Here the space of X_1 and Z_1 becomes that of Z_1. *)
Theorem C86_refuted : exists st, generate_noncumulative c82_oracles c82_basis [c82_y0; c82_y1] false true tol10r n_fresh = Ok (Some st) /\
  n_pout st = [[c82_e2]; [c82_e2]] /\ ~ span 2 [c82_e2] c82_e1 /\
  forall (A : StarAlg) (S : RScal A) (g : op -> Z -> A), rep Pauli g -> ~ (@aone A == azero) -> satisfies S g c82_basis c82_y0 c82_e1.
Proof.
  destruct c82_run1 as (st & Es & Ep).
  exists (set_pout st [[c82_e2]; [c82_e2]]). split; [|split; [reflexivity|split; [apply c82_not_span|intros; apply c82_meaning; auto]]].
  unfold generate_noncumulative in *. destruct (rfold (n_generate c82_oracles c82_basis tol10r) _ n_fresh) as [s1|e]; cbn [rbind] in *; [|discriminate].
  destruct (ofold _ _ s1) as [[s2|]|e]; cbn [rbind] in *; try discriminate. injection Es as ->.
  cbn [length seq rev Nat.sub app]. unfold ofold. cbn [rfold]. unfold n_orthogonalize. rewrite Ep. cbn [nth_error of_option rbind Nat.sub length Nat.ltb Nat.leb skipn app list_set].
  assert (N1 : vnorm c82_e2 = 1%R) by (unfold vnorm, c82_e2; cbn; replace (0 * 0 + 0 * 0 + (1 * 1 + 0 * 0 + 0))%R with 1%R by lra; apply sqrt_1).
  assert (E1 : vscale (RtoC (/ 1)) c82_e2 = c82_e2) by (rewrite Rinv_1; apply vscale_one).
  unfold gram_schmidt. cbn [Nat.eqb cbasis_len c82_basis basis_len length b_strings c78_basis]. rewrite N1. destruct (Req_EM_T 1 0) as [E|_]; [lra|]. rewrite E1.
  cbn [gs_loop]. unfold gs_project. cbn [fold_left].
  assert (Ew : vsub c82_e2 (vscale (vdot c82_e2 c82_e2) c82_e2) = vzero 2) by (unfold c82_e2, vzero; cbn; crows).
  rewrite Ew, vnorm_vzero. destruct (Rlt_dec 0 0) as [E|_]; [lra|]. reflexivity.
Qed.
Print Assumptions C86_refuted.
(** The hypotheses of C82 hold here (C82_example). *)
Example C86_example : exact_run c82_oracles c82_basis [c82_y0; c82_y1] tol10r /\ exists (A : StarAlg) (S : RScal A) (g : op -> Z -> A), rep Pauli g /\ ~ (@aone A == azero).
Proof. split; [apply c82_exact|]. exists CFock, cfock_real, cgen. split; [apply cfock_pauli | apply cfock_nontrivial]. Qed.

(** C87: the claim is that after adding a symmetry to a generator that was used before, generating
    again gives operators with all the symmetries.  It is false: the lists of results are not
    cleared (core.py:344-347,366-399), so that the indices point to the results of the first call.
    Here X_1 is in all the spaces of the result, and does not commute with Z_1. *)
Theorem C87_refuted : exists st0 st, generate_noncumulative c82_oracles c82_basis [c82_y0] false false tol10r n_fresh = Ok (Some st0) /\
  generate_noncumulative c82_oracles c82_basis [c82_y0; c82_y1] false false tol10r st0 = Ok (Some st) /\ length (n_pout st) = 3 /\
  (forall vs, In vs (n_pout st) -> span 2 vs c82_e1) /\
  forall (A : StarAlg) (S : RScal A) (g : op -> Z -> A), rep Pauli g -> ~ (@aone A == azero) -> ~ satisfies S g c82_basis c82_y1 c82_e1.
Proof.
  exists c82_st0. enough (G : exists st, generate_noncumulative c82_oracles c82_basis [c82_y0; c82_y1] false false tol10r c82_st0 = Ok (Some st) /\
    n_pout st = [[c82_e1; c82_e2]; [c82_e1; c82_e2]; [c82_e1; c82_e2]]).
  { destruct G as (st & E & Ep). exists st. split; [apply c82_run0|]. split; auto. rewrite Ep. split; [reflexivity|]. split.
    - intros vs [<-|[<-|[<-|[]]]]; apply span_member; simpl; auto.
    - intros A S g Hr Hn. apply c82_meaning; auto. }
  unfold generate_noncumulative, c82_st0. cbn [rfold length seq combine]. unfold n_generate at 1. rewrite c82_search0. cbn [rbind]. unfold n_generate at 1. rewrite c82_search1. cbn [rbind].
  unfold ofold. cbn [rfold]. unfold n_project at 1. cbn [n_super n_evals n_evecs n_out n_psuper n_pevals n_pevecs n_pout n_inter n_fresh app nth_error of_option rbind Nat.eqb f_ops f_super f_evals f_evecs].
  cbn [rfold]. unfold n_project. cbn [n_super n_evals n_evecs n_out n_psuper n_pevals n_pevecs n_pout n_inter app nth_error of_option rbind Nat.eqb Nat.sub f_ops f_super].
  change (cbasis_len c82_basis) with 2. change (fun D : list vec => keep (fun e : R => lt_dec (Rabs e) tol10r) (or_eig c82_oracles None D)) with c82_solver.
  rewrite c82_inter4. cbn [rbind y_num c82_y1 or_eig c82_oracles]. rewrite c82_project0. unfold c82_eig, c82_zero2. cbn [fst RtoC].
  destruct (Req_EM_T 0 4) as [E|_]; [lra|]. destruct (Req_EM_T 0 (-1)) as [E|_]; [lra|].
  unfold keep. cbn [filter fst]. rewrite c82_small. cbn [map snd rbind].
  eexists. split; [reflexivity|]. cbn [n_pout]. do 3 f_equal. unfold c82_e1, c82_e2. cbn. crows; crows.
Qed.
Print Assumptions C87_refuted.
