(** Properties C95-C99: selected_ci_greedy. *)
From Coq Require Import String List ZArith Bool Arith Lia Permutation Sorted Reals QArith Qreals Qcanon Lra.
From Coquelicot Require Import Complex.
From Verif Require Import GC Exn M_OpString M_Tools M_Algebra M_Basis M_OpAlg M_Transform M_LinAlg M_Explore M_Core M_Greedy
  S_Alg S_Den S_Basis S_Built S_OpAlg S_Explore S_RScal S_CFock S_CScal S_LinAlg S_Core S_Greedy
  L_Alg L_Basis L_PropStr L_PropOpAlg L_Explore L_Explore2 L_Explore3 L_CScal L_CFock L_LinAlg L_Inter L_Herm L_Core L_Commuting L_Lie L_Greedy1 L_Greedy2 L_Greedy3 L_Greedy4 P_Core P_Default.
Import ListNotations.
Local Open Scope nat_scope.
Local Open Scope alg_scope.

Lemma start_ok ty H init x thr : ty <> Fermion -> std_op ty H -> std_cop ty init -> explored ty H x ->
  state_ok ty H init (mkG (basis_iadd basis_empty (c_basis init)) init x [] [] init None thr false).
Proof.
  intros Hty HH [(Hb & Hl & Ht & Hs) Hd] Hx. pose proof (L_PropBasis.built_ok _ Hb) as Hok. rewrite basis_iadd_empty by auto.
  assert (Hl' : std_list ty (b_strings (c_basis init))) by (intros s Hin; split; auto).
  split; [split; [split|]; auto|]. split; auto. split; [apply (explored_ok ty H); auto|]. split; [constructor|]. cbn. auto.
Qed.

(** C95: every Operator that the search records is a real combination of well-formed strings with
    norm 1, and the number recorded with it is the squared norm of its commutator with the first
    of the [com_ops]; the Operator returned is the first of the recorded ones with the smallest
    number; at least one and at most [num_steps] are recorded; and if the best number is 0 the
    best Operator commutes with H.  (No transformations; orth_ops and further com_ops are allowed.) *)
Theorem C95_greedy : forall ty H rest Or p fuel init n thr x best bestn ops norms,
  ty <> Fermion -> std_op ty H -> (forall o, In o rest -> std_op ty o) -> std_cop ty init -> explored ty H x ->
  real_solver (gr_eig Or) -> gp_trans p = None ->
  selected_ci_greedy Or p fuel init (H :: rest) n thr x = Ok (best, bestn, ops, norms) ->
  Forall2 (fun o e => std_cop ty o /\ real_vec (c_coeffs o) /\ norm2c (c_coeffs o) = 1%R /\ commutator_norm ty H o e) ops norms /\
  best_of init ops norms best bestn /\ length ops <= n /\ (n <> 0 -> ops <> []) /\
  (bestn = Some 0%R -> forall (A : StarAlg) (Sc : RScal A) (g : op -> Z -> A), rep ty g ->
     exact MCommutator (clincomb Sc g (c_terms best)) (lincomb g (op_terms H)) == azero).
Proof.
  intros ty H rest Or p fuel init n thr x best bestn ops norms Hty HH Hrest Hi Hx Heig Hpt E.
  unfold selected_ci_greedy in E. destruct (forallb _ _); [discriminate|].
  match type of E with context [rbind ?a _] => destruct a as [st|] eqn:El; [|discriminate] end. cbn [rbind] in E. injection E as <- <- <- <-.
  destruct (loop_ok ty H rest Hty HH Hrest Or p fuel init Heig Hpt _ _ _ _ (start_ok ty H init x thr Hty HH Hi Hx) El) as ((_ & _ & _ & HF & HB) & os & es & K1 & K2 & K3 & K4 & _).
  cbn [g_ops g_norms app g_end] in *. split; [exact HF|]. split; auto. rewrite K1. split; auto. split; [auto|].
  intros E0 A Sc g Hr. rewrite E0 in HB. destruct HB as (i & N1 & N2 & _).
  assert (RO : rec_ok ty H (g_best st) 0%R).
  { clear - HF N1 N2. revert i N1 N2. induction HF as [|o e l m R F IH]; intros [|i] N1 N2; try discriminate; cbn in *; [congruence|eauto]. }
  destruct RO as (_ & _ & _ & D & w & _ & Lw & Nw & Ew). rewrite (Ew A Sc g Hr).
  assert (W : w = vzero (length w)).
  { apply sqsum_zero. rewrite sqsum_norm2c. exact Nw. }
  rewrite W. apply clin_vzero.
Qed.
Print Assumptions C95_greedy.
(** The squared norm of the commutator is determined by the Operators. *)
Theorem C95_norm : forall ty H o d e, ty <> Fermion -> commutator_norm ty H o d -> commutator_norm ty H o e -> d = e.
Proof. intros ty H o d e Hty. apply commutator_norm_unique; auto. Qed.
Print Assumptions C95_norm.

(** C96: with one Operator H, no [orth_ops] and no transformations, and solvers that find the
    smallest eigenvalue, the number recorded in each step is the minimum of |[O,H]|^2 / |O|^2
    over all real combinations O of the strings of the recorded Operator. *)
Theorem C96_least : forall ty H Or p fuel init n thr x best bestn ops norms,
  ty <> Fermion -> std_op ty H -> std_cop ty init -> explored ty H x ->
  real_solver (gr_eig Or) -> finds_lowest (gr_eig Or) -> sorts_reals (gr_sort Or) -> gp_trans p = None -> gp_orth p = None ->
  selected_ci_greedy Or p fuel init [H] n thr x = Ok (best, bestn, ops, norms) ->
  Forall2 (fun o e => forall q d, std_cop ty q -> b_strings (c_basis q) = b_strings (c_basis o) -> real_vec (c_coeffs q) ->
    commutator_norm ty H q d -> (e * norm2c (c_coeffs q) <= d)%R) ops norms.
Proof.
  intros ty H Or p fuel init n thr x best bestn ops norms Hty HH Hi Hx Heig Hlow Hsort Hpt Hpo E.
  unfold selected_ci_greedy in E. destruct (forallb _ _); [discriminate|].
  match type of E with context [rbind ?a _] => destruct a as [st|] eqn:El; [|discriminate] end. cbn [rbind] in E. injection E as <- <- <- <-.
  destruct (loop_ok ty H [] Hty HH (fun o F => match F with end) Or p fuel init Heig Hpt _ _ _ _ (start_ok ty H init x thr Hty HH Hi Hx) El) as (_ & os & es & K1 & K2 & _ & _ & K5).
  cbn [g_ops g_norms app] in *. rewrite K1, K2. exact (K5 (conj eq_refl (conj Hpo (conj Hlow Hsort)))).
Qed.
Print Assumptions C96_least.

(* ------------------------------------------------------------- examples *)

(** An argsort of real numbers. *)
Fixpoint rins (l : list R) (i : nat) (p : list nat) : list nat :=
  match p with
  | [] => [i]
  | j :: q => if Rle_lt_dec (nth i l 0%R) (nth j l 0%R) then i :: p else j :: rins l i q
  end.
Definition argsort (l : list R) : list nat := fold_right (rins l) [] (seq 0 (length l)).
Lemma rins_perm l i p : Permutation (rins l i p) (i :: p).
Proof. induction p as [|j p IH]; cbn; auto. destruct (Rle_lt_dec _ _); auto. rewrite IH. apply perm_swap. Qed.
Lemma rins_sorted l i p : StronglySorted (fun i j => (nth i l 0 <= nth j l 0)%R) p -> StronglySorted (fun i j => (nth i l 0 <= nth j l 0)%R) (rins l i p).
Proof.
  induction 1 as [|j p S IH F]; cbn; [repeat constructor|]. destruct (Rle_lt_dec _ _) as [L|L].
  - constructor; [constructor; auto|]. constructor; auto. eapply Forall_impl; [|exact F]. cbn. intros k Hk. lra.
  - constructor; auto. apply (Permutation_Forall (Permutation_sym (rins_perm l i p))). constructor; auto. lra.
Qed.
Lemma sorted_nth {T} (R : T -> T -> Prop) p : StronglySorted R p -> forall i j a b, i < j -> nth_error p i = Some a -> nth_error p j = Some b -> R a b.
Proof.
  induction 1 as [|x p S IH F]; intros i j a b L Hi Hj; [destruct i; discriminate|]. destruct j as [|j]; [lia|]. cbn in Hj. destruct i as [|i]; cbn in Hi.
  - injection Hi as ->. rewrite Forall_forall in F. apply F. eapply nth_error_In; eauto.
  - apply (IH i j); auto. lia.
Qed.
Lemma argsort_sorts : sorts_reals argsort.
Proof.
  intros l. unfold argsort. split.
  - induction (seq 0 (length l)) as [|i p IH]; cbn; auto. rewrite rins_perm. auto.
  - intros a b i j x y L Hi Hj Hx Hy. rewrite <- (nth_error_nth _ _ 0%R Hx), <- (nth_error_nth _ _ 0%R Hy).
    assert (SS : StronglySorted (fun i j => (nth i l 0 <= nth j l 0)%R) (fold_right (rins l) [] (seq 0 (length l)))).
    { clear. induction (seq 0 (length l)) as [|k p IH]; cbn; [constructor|]. apply rins_sorted; auto. }
    apply (sorted_nth _ _ SS a b i j); auto.
Qed.

(** A solver that knows one matrix. *)
Definition solver_of (D : list vec) (ps : list (R * vec)) : eigensolver := fun _ M => if vecs_dec M D then ps else [].
Lemma solver_hit nv D ps : solver_of D ps nv D = ps.
Proof. unfold solver_of. destruct (vecs_dec D D); congruence. Qed.
Lemma solver_real D ps : (forall l v, In (l, v) ps -> length v = length D /\ real_vec v /\ norm2c v = 1%R /\ rows_vec D v = map (Cmult (RtoC l)) v) -> real_solver (solver_of D ps).
Proof. intros Hp nv M l v _ Hin. unfold solver_of in Hin. destruct (vecs_dec M D) as [->|]; [apply Hp; auto | destruct Hin]. Qed.
Lemma solver_lowest D l v ps : below D l -> finds_lowest (solver_of D ((l, v) :: ps)).
Proof.
  intros Hb M _. unfold solver_of. destruct (vecs_dec M D) as [->|].
  - split; [intros l0 v0 ps0 E; injection E as <- _ _; auto|]. intros k _. exists l, v. split; [left|]; auto.
  - split; [discriminate|]. intros k F. exfalso. apply F. reflexivity.
Qed.

Definition gi_H : Operator := c78_op.
Definition gi_init : COp := mkCOp [RtoC 1; RtoC 1] c78_basis Pauli.
Definition gi_or : groracles := mkGOr (solver_of c78_super c78_pairs) argsort.
Definition gi_p : gparams := mkGP [1] 1 [2] None None None None 3.
Lemma gi_std_H : std_op Pauli gi_H.
Proof. split; [apply c78_good_op|]. intros s [<-|[]]. left; reflexivity. Qed.
Lemma gi_std_init : std_cop Pauli gi_init.
Proof. split; [|intros s [<-|[<-|[]]]; left; reflexivity]. split; [apply c78_good_basis|]. split; [reflexivity|]. split; [reflexivity|]. apply c78_good_basis. Qed.
Lemma gi_pairs l v : In (l, v) c78_pairs -> length v = length c78_super /\ real_vec v /\ norm2c v = 1%R /\ rows_vec c78_super v = map (Cmult (RtoC l)) v.
Proof.
  intros [E|[E|[]]]; injection E as <- <-; (split; [reflexivity|]); (split; [intros z [<-|[<-|[]]]; reflexivity|]); (split; [unfold norm2c; cbn; lra|]);
    cbn; unfold csum; cbn; repeat (match goal with |- _ :: _ = _ :: _ => f_equal end); apply injective_projections; cbn; lra.
Qed.
Lemma gi_below : below c78_super 0.
Proof.
  intros [|[a b] [|[c d] [|e w]]] Lw Rw; try discriminate. assert (Eb : b = 0%R) by (apply (Rw (a, b)); left; auto). assert (Ed : d = 0%R) by (apply (Rw (c, d)); right; left; auto). subst.
  cbn. nra.
Qed.

(** The explorations of a run with H = Z_1 that starts at X_1 + Z_1. *)
Definition ex_get (r : res (smat * Basis * cache)) : smat * Basis * cache := match r with Ok y => y | Err _ => (mkSM 0 0 [], basis_empty, cache_empty) end.
Definition gi_A : Basis := mkBasis [sY1] [(sY1, 0)].
Definition gi_L1 := Eval vm_compute in fst (fst (ex_get (explore c78_basis gi_H cache_empty None))).
Definition gi_E1 := Eval vm_compute in snd (fst (ex_get (explore c78_basis gi_H cache_empty None))).
Definition gi_x1 := Eval vm_compute in snd (ex_get (explore c78_basis gi_H cache_empty None)).
Definition gi_L2 := Eval vm_compute in fst (fst (ex_get (explore gi_A gi_H gi_x1 None))).
Definition gi_E2 := Eval vm_compute in snd (fst (ex_get (explore gi_A gi_H gi_x1 None))).
Definition gi_x2 := Eval vm_compute in snd (ex_get (explore gi_A gi_H gi_x1 None)).
Definition gi_L3 := Eval vm_compute in fst (fst (ex_get (explore c78_basis gi_H gi_x2 None))).
Definition gi_E3 := Eval vm_compute in snd (fst (ex_get (explore c78_basis gi_H gi_x2 None))).
Definition gi_x3 := Eval vm_compute in snd (ex_get (explore c78_basis gi_H gi_x2 None)).
Lemma gi_e1 : explore c78_basis gi_H cache_empty None = Ok (gi_L1, gi_E1, gi_x1). Proof. vm_compute. reflexivity. Qed.
Lemma gi_e2 : explore gi_A gi_H gi_x1 None = Ok (gi_L2, gi_E2, gi_x2). Proof. vm_compute. reflexivity. Qed.
Lemma gi_e3 : explore c78_basis gi_H gi_x2 None = Ok (gi_L3, gi_E3, gi_x3). Proof. vm_compute. reflexivity. Qed.

Lemma gi_grow Or : gr_sort Or = argsort -> grow_commutators Or gi_H [gi_H] 1 c78_basis gi_init cache_empty = Ok (c78_basis, gi_x2).
Proof.
  intros Es. unfold grow_commutators. rewrite gi_e1. cbn [rbind].
  change (negb (length (c_coeffs gi_init) =? sm_cols gi_L1)) with false. cbv beta iota zeta.
  set (v := rows_vec (dense_rows gi_L1) (c_coeffs gi_init)). assert (Ev : exists z, v = [z]) by (eexists; reflexivity). destruct Ev as [z Ez]. rewrite Ez. clear v Ez.
  replace (largest_first Or [z]) with [0] by (unfold largest_first; rewrite Es; reflexivity). cbn [length Nat.min firstn].
  change (take (b_strings gi_E1) [0]) with (Ok [sY1]). cbn [rbind]. change (basis_new [sY1]) with (Ok gi_A). cbn [rbind].
  change (take [z] [0]) with (Ok [z]). cbn [rbind rfold]. unfold grow_com. cbn [snd fst]. rewrite gi_e2. cbn [rbind]. cbv beta iota zeta.
  set (v := rows_vec (dense_rows gi_L2) [z]). assert (Ev : exists u, v = [u]) by (eexists; reflexivity). destruct Ev as [u Eu]. rewrite Eu. clear v Eu.
  replace (largest_first Or [u]) with [0] by (unfold largest_first; rewrite Es; reflexivity).
  change (add_terms (Nat.min (length [u]) 1) gi_E2 [0] 0 c78_basis) with (Ok c78_basis). reflexivity.
Qed.
Lemma gi_anti Or : gr_sort Or = argsort -> grow_anticommutators Or 1 gi_init c78_basis = Ok c78_basis.
Proof.
  intros Es. unfold grow_anticommutators. cbn [c_coeffs gi_init length Nat.min c_basis].
  assert (El : largest_first Or [RtoC 1; RtoC 1] = [0; 1] \/ largest_first Or [RtoC 1; RtoC 1] = [1; 0]).
  { unfold largest_first. rewrite Es. cbn. destruct (Rle_lt_dec _ _); auto. }
  destruct El as [-> | ->]; vm_compute; reflexivity.
Qed.
Lemma gi_matrix : rreal (gram (dense_cols gi_L3)) = c78_super.
Proof.
  replace (dense_cols gi_L3) with [[(0, -2)%R]; [RtoC 0]].
  - rewrite c78_gram. unfold rreal, c78_super. cbn. reflexivity.
  - unfold dense_cols. cbn -[Q2R RtoC]. unfold to_C. cbn -[RtoC]. unfold Q2R, RtoC. cbn. repeat f_equal; lra.
Qed.
Lemma gi_vzero : radd (rzero 2) c78_super = c78_super.
Proof. apply (radd_zero 2); [reflexivity|]. intros v [<-|[<-|[]]]; reflexivity. Qed.
Lemma gi_find : find_vectors gi_or gi_p [gi_H] c78_basis gi_x2 = Ok (c78_pairs, gi_x3).
Proof.
  unfold find_vectors. cbn [rfold]. unfold com_step. rewrite gi_e3. cbn [rbind]. rewrite gi_matrix. change (basis_len c78_basis) with 2. rewrite gi_vzero.
  cbn [gp_orth gi_p gp_trans rbind Nat.ltb Nat.leb orb]. cbn [gi_or gr_eig]. rewrite solver_hit. reflexivity.
Qed.
Definition gi_Z : COp := mkCOp [RtoC 0; RtoC 1] c78_basis Pauli.
Lemma gi_truncate Or : gr_sort Or = argsort -> gtruncate Or c78_basis [RtoC 0; RtoC 1] 0 2 = Ok (mkBasis [sZ1] [(sZ1, 0)]).
Proof.
  intros Es. unfold gtruncate.
  assert (E0 : lt_dec 0 (Cmod (RtoC 0)) = false) by (apply not_true_iff_false; rewrite lt_dec_true, Cmod_0; lra).
  assert (E1 : lt_dec 0 (Cmod (RtoC 1)) = true) by (apply lt_dec_true; rewrite Cmod_1; lra).
  assert (El : largest_first Or [RtoC 0; RtoC 1] = [0; 1] \/ largest_first Or [RtoC 0; RtoC 1] = [1; 0]).
  { unfold largest_first. rewrite Es. cbn. destruct (Rle_lt_dec _ _); auto. }
  destruct El as [-> | ->]; cbn [rmap nth_error of_option rbind filter snd]; rewrite E0, E1; reflexivity.
Qed.
Lemma gi_run : selected_ci_greedy gi_or gi_p 0 gi_init [gi_H] 1 0 cache_empty = Ok (gi_Z, Some 0%R, [gi_Z], [0%R]).
Proof.
  unfold selected_ci_greedy. change (forallb _ (b_strings (o_basis gi_H))) with false. change (basis_iadd basis_empty (c_basis gi_init)) with c78_basis.
  cbn [greedy_loop g_end]. unfold greedy_step. cbn [g_basis g_op g_cache nth_error gp_nH gi_p of_option rbind].
  rewrite (gi_grow gi_or eq_refl). cbn [rbind gp_nO gi_p]. rewrite (gi_anti gi_or eq_refl). cbn [rbind gp_trans gi_p]. rewrite gi_find. cbn [rbind nth_error c78_pairs of_option].
  cbn [worse g_bestn gi_p gp_minrel improves g_thr]. change (cop_new [RtoC 0; RtoC 1] (b_strings c78_basis) None) with (Ok gi_Z). cbn [rbind gp_sizes gi_p nth_error of_option].
  rewrite (gi_truncate gi_or eq_refl). cbn [rbind]. reflexivity.
Qed.
Example C95_example : std_op Pauli gi_H /\ std_cop Pauli gi_init /\ explored Pauli gi_H cache_empty /\
  real_solver (gr_eig gi_or) /\ finds_lowest (gr_eig gi_or) /\ sorts_reals (gr_sort gi_or) /\
  selected_ci_greedy gi_or gi_p 0 gi_init [gi_H] 1 0 cache_empty = Ok (gi_Z, Some 0%R, [gi_Z], [0%R]) /\ c_terms gi_Z = [(RtoC 0, sX1); (RtoC 1, sZ1)].
Proof.
  split; [apply gi_std_H|]. split; [apply gi_std_init|]. split; [constructor|]. split; [apply solver_real, gi_pairs|].
  split; [apply solver_lowest, gi_below|]. split; [apply argsort_sorts|]. split; [apply gi_run | reflexivity].
Qed.

(* -------------------------------------------------------- what fails *)

Lemma explored_norm ty H b L ext x o : ty <> Fermion -> std_op ty H -> std_basis ty b -> explore b H cache_empty None = Ok (L, ext, x) -> b_strings (c_basis o) = b_strings b ->
  commutator_norm ty H o (norm2c (mat_vec (basis_len ext) (dense_cols L) (c_coeffs o))).
Proof.
  intros Hty HH Hb E Eb. destruct (explore_main ty H Hty HH b cache_empty L ext x (explored_ok ty H Hty HH _ (explored_none ty H)) Hb E) as (_ & _ & HC & R1 & R2 & D).
  exists ext, (mat_vec (basis_len ext) (dense_cols L) (c_coeffs o)). split; auto.
  split; [rewrite <- R1; apply mat_vec_length, dense_cols_vectors|]. split; auto. intros A Sc g Hr. unfold c_terms. rewrite Eb. apply D; auto.
Qed.
Lemma gi_std_basis : std_basis Pauli c78_basis.
Proof. split; [apply c78_good_basis|]. intros s [<-|[<-|[]]]; left; reflexivity. Qed.
Lemma gi_Z_norm : commutator_norm Pauli gi_H gi_Z 0.
Proof.
  replace 0%R with (norm2c (mat_vec (basis_len gi_E1) (dense_cols gi_L1) (c_coeffs gi_Z))).
  - apply (explored_norm _ _ c78_basis _ _ gi_x1); [discriminate | apply gi_std_H | apply gi_std_basis | apply gi_e1 | reflexivity].
  - unfold norm2c. cbn -[Q2R]. unfold to_C. cbn. unfold Q2R. cbn. lra.
Qed.

(** C97: with transformations the numbers recorded are not the squared norms of the commutators:
    they contain the penalty of 10^10 for the part of the Operator that is not symmetric.  Here
    Z_1 is returned with the number 2*10^10, although it commutes with H = Z_1. *)
Definition gt_T : rule := fun s => if os_key s sX1 || os_key s sZ1 then op_new [gm1] [s] None else op_new [g1] [s] None.
Definition gt_super : list vec := [[RtoC (4 + 2 * large_number); RtoC 0]; [RtoC 0; RtoC (2 * large_number)]].
Definition gt_pairs : list (R * vec) := [((2 * large_number)%R, [RtoC 0; RtoC 1]); ((4 + 2 * large_number)%R, [RtoC 1; RtoC 0])].
Definition gt_or : groracles := mkGOr (solver_of gt_super gt_pairs) argsort.
Definition gt_p : gparams := mkGP [1] 1 [2] None (Some [gt_T]) None None 3.
Lemma gt_real : real_solver (gr_eig gt_or).
Proof.
  apply solver_real. intros l v [E|[E|[]]]; injection E as <- <-; (split; [reflexivity|]); (split; [intros z [<-|[<-|[]]]; reflexivity|]); (split; [unfold norm2c; cbn; lra|]);
    cbn -[large_number]; unfold csum; cbn -[large_number]; repeat (match goal with |- _ :: _ = _ :: _ => f_equal end); apply injective_projections; cbn -[large_number]; ring.
Qed.
Lemma large_pos : (0 < large_number)%R.
Proof. unfold large_number. apply pow_lt. lra. Qed.
Lemma gt_lowest : finds_lowest (gr_eig gt_or).
Proof.
  apply solver_lowest. intros [|[a b] [|[c d] [|e w]]] Lw Rw; try discriminate.
  assert (Eb : b = 0%R) by (apply (Rw (a, b)); left; auto). assert (Ed : d = 0%R) by (apply (Rw (c, d)); right; left; auto). subst.
  cbn -[large_number]. pose proof large_pos. nra.
Qed.
Definition gt_S : smat := mkSM 2 2 [(0, 0, gm1); (1, 1, gm1)].
Lemma gt_symmetry : symmetry_matrix c78_basis gt_T = Ok gt_S.
Proof. vm_compute. reflexivity. Qed.
Lemma gt_find : find_vectors gt_or gt_p [gi_H] c78_basis gi_x2 = Ok (gt_pairs, gi_x3).
Proof.
  unfold find_vectors. cbn [rfold]. unfold com_step. rewrite gi_e3. cbn [rbind]. rewrite gi_matrix. change (basis_len c78_basis) with 2. rewrite gi_vzero.
  cbn [gp_orth gt_p gp_trans rbind]. unfold symmetrize_com_matrix. cbn [rfold]. rewrite gt_symmetry. cbn [rbind]. change (basis_len c78_basis) with 2.
  replace (radd c78_super (rscale large_number (one_minus 2 1 (hermitian_rows 2 (dense_cols gt_S))))) with gt_super.
  - cbn [gp_vecs Nat.ltb Nat.leb orb]. cbn [gt_or gr_eig]. rewrite solver_hit. reflexivity.
  - replace (dense_cols gt_S) with [[RtoC (-1); RtoC 0]; [RtoC 0; RtoC (-1)]].
    + unfold gt_super, c78_super. cbn -[large_number]. repeat (match goal with |- _ :: _ = _ :: _ => f_equal end); apply injective_projections; cbn -[large_number]; field.
    + unfold dense_cols. cbn -[Q2R RtoC]. unfold to_C. cbn -[RtoC]. unfold Q2R, RtoC. cbn. repeat f_equal; lra.
Qed.
Lemma gt_run : selected_ci_greedy gt_or gt_p 2 gi_init [gi_H] 1 0 cache_empty = Ok (gi_Z, Some (2 * large_number)%R, [gi_Z], [(2 * large_number)%R]).
Proof.
  unfold selected_ci_greedy. change (forallb _ (b_strings (o_basis gi_H))) with false. change (basis_iadd basis_empty (c_basis gi_init)) with c78_basis.
  cbn [greedy_loop g_end]. unfold greedy_step. cbn [g_basis g_op g_cache nth_error gp_nH gt_p of_option rbind].
  rewrite (gi_grow gt_or eq_refl). cbn [rbind gp_nO gt_p]. rewrite (gi_anti gt_or eq_refl). cbn [rbind gp_trans gt_p].
  change (close_basis 2 [gt_T] 0 c78_basis) with (Ok c78_basis). cbn [rbind].
  rewrite gt_find. cbn [rbind nth_error gt_pairs of_option].
  cbn [worse g_bestn gt_p gp_minrel improves g_thr]. change (cop_new [RtoC 0; RtoC 1] (b_strings c78_basis) None) with (Ok gi_Z). cbn [rbind gp_sizes gt_p nth_error of_option].
  rewrite (gi_truncate gt_or eq_refl). cbn [rbind]. reflexivity.
Qed.
Theorem C97_refuted : exists H Or p fuel init n thr x best bestn ops norms,
  std_op Pauli H /\ std_cop Pauli init /\ explored Pauli H x /\ real_solver (gr_eig Or) /\ finds_lowest (gr_eig Or) /\ sorts_reals (gr_sort Or) /\ gp_orth p = None /\
  selected_ci_greedy Or p fuel init [H] n thr x = Ok (best, bestn, ops, norms) /\
  ~ Forall2 (commutator_norm Pauli H) ops norms /\ commutator_norm Pauli H best 0 /\ bestn = Some (2 * 10 ^ 10)%R.
Proof.
  exists gi_H, gt_or, gt_p, 2, gi_init, 1, 0%R, cache_empty, gi_Z, (Some (2 * large_number)%R), [gi_Z], [(2 * large_number)%R].
  split; [apply gi_std_H|]. split; [apply gi_std_init|]. split; [constructor|]. split; [apply gt_real|]. split; [apply gt_lowest|]. split; [apply argsort_sorts|].
  split; [reflexivity|]. split; [apply gt_run|]. split; [|split; [apply gi_Z_norm | reflexivity]].
  intros F. inversion F as [|? ? ? ? F1 F2]; subst. pose proof (C95_norm Pauli gi_H gi_Z _ _ ltac:(discriminate) F1 gi_Z_norm). pose proof large_pos. lra.
Qed.
Print Assumptions C97_refuted.

(** C98: [orth_ops] does not keep the result orthogonal to these Operators: after the solver the
    numbers are computed again without the penalty and sorted, so that the Operator to be avoided
    comes first.  Here orth_ops = [Z_1] and Z_1 is returned. *)
Definition go_q : COp := mkCOp [RtoC 1] (mkBasis [sZ1] [(sZ1, 0)]) Pauli.
Definition go_super : list vec := [[RtoC 4; RtoC 0]; [RtoC 0; RtoC large_number]].
Definition go_pairs : list (R * vec) := [(4%R, [RtoC 1; RtoC 0]); (large_number, [RtoC 0; RtoC 1])].
Definition go_or : groracles := mkGOr (solver_of go_super go_pairs) argsort.
Definition go_p : gparams := mkGP [1] 1 [2] (Some [go_q]) None None None 3.
Lemma go_real : real_solver (gr_eig go_or).
Proof.
  apply solver_real. intros l v [E|[E|[]]]; injection E as <- <-; (split; [reflexivity|]); (split; [intros z [<-|[<-|[]]]; reflexivity|]); (split; [unfold norm2c; cbn; lra|]);
    cbn -[large_number]; unfold csum; cbn -[large_number]; repeat (match goal with |- _ :: _ = _ :: _ => f_equal end); apply injective_projections; cbn -[large_number]; ring.
Qed.
Lemma large_4 : (4 < large_number)%R.
Proof. unfold large_number. cbn. lra. Qed.
Lemma go_lowest : finds_lowest (gr_eig go_or).
Proof.
  apply solver_lowest. intros [|[a b] [|[c d] [|e w]]] Lw Rw; try discriminate.
  assert (Eb : b = 0%R) by (apply (Rw (a, b)); left; auto). assert (Ed : d = 0%R) by (apply (Rw (c, d)); right; left; auto). subst.
  cbn -[large_number]. pose proof large_4. nra.
Qed.
Lemma go_orth : orthogonalize_com_matrix c78_super c78_basis [go_q] = Ok go_super.
Proof.
  unfold orthogonalize_com_matrix. replace (rmap (orth_vector c78_basis) [go_q]) with (Ok [[RtoC 0; RtoC 1]]).
  - cbn [rbind]. f_equal. unfold go_super, c78_super. cbn -[large_number]. repeat (match goal with |- _ :: _ = _ :: _ => f_equal end); apply injective_projections; cbn -[large_number]; ring.
  - cbn [rmap]. unfold orth_vector. change (filter _ (c_terms go_q)) with [(RtoC 1, sZ1)]. cbn [rmap snd fst]. change (basis_index c78_basis sZ1) with (Ok 1).
    cbn [rbind]. cbn. unfold csum. cbn. do 2 f_equal. repeat (match goal with |- _ :: _ = _ :: _ => f_equal end); apply injective_projections; cbn; ring.
Qed.
Lemma go_find : find_vectors go_or go_p [gi_H] c78_basis gi_x2 = Ok ([(0%R, [RtoC 0; RtoC 1]); (4%R, [RtoC 1; RtoC 0])], gi_x3).
Proof.
  unfold find_vectors. cbn [rfold]. unfold com_step. rewrite gi_e3. cbn [rbind]. rewrite gi_matrix. change (basis_len c78_basis) with 2. rewrite gi_vzero.
  cbn [gp_orth go_p gp_trans]. rewrite go_orth. cbn [rbind gp_vecs go_p Nat.ltb Nat.leb orb]. cbn [go_or gr_eig]. rewrite solver_hit. cbn [rbind length Nat.ltb Nat.leb orb].
  unfold go_pairs. cbn [map snd].
  replace (expectation c78_super [RtoC 1; RtoC 0]) with 4%R by (unfold expectation; cbn; lra).
  replace (expectation c78_super [RtoC 0; RtoC 1]) with 0%R by (unfold expectation; cbn; lra).
  unfold sort_pairs. cbn [map fst]. change (gr_sort go_or) with argsort. replace (argsort [Rabs 4; Rabs 0]) with [1; 0]; [reflexivity|].
  unfold argsort. cbn. destruct (Rle_lt_dec (Rabs 4) (Rabs 0)) as [F|F]; auto. rewrite Rabs_R0, Rabs_right in F; lra.
Qed.
Lemma go_run : selected_ci_greedy go_or go_p 0 gi_init [gi_H] 1 0 cache_empty = Ok (gi_Z, Some 0%R, [gi_Z], [0%R]).
Proof.
  unfold selected_ci_greedy. change (forallb _ (b_strings (o_basis gi_H))) with false. change (basis_iadd basis_empty (c_basis gi_init)) with c78_basis.
  cbn [greedy_loop g_end]. unfold greedy_step. cbn [g_basis g_op g_cache nth_error gp_nH go_p of_option rbind].
  rewrite (gi_grow go_or eq_refl). cbn [rbind gp_nO go_p]. rewrite (gi_anti go_or eq_refl). cbn [rbind gp_trans go_p]. rewrite go_find. cbn [rbind nth_error of_option].
  cbn [worse g_bestn go_p gp_minrel improves g_thr]. change (cop_new [RtoC 0; RtoC 1] (b_strings c78_basis) None) with (Ok gi_Z). cbn [rbind gp_sizes go_p nth_error of_option].
  rewrite (gi_truncate go_or eq_refl). cbn [rbind]. reflexivity.
Qed.
Theorem C98_refuted : exists H Or p q fuel init n thr x best bestn ops norms,
  std_op Pauli H /\ std_cop Pauli init /\ explored Pauli H x /\ real_solver (gr_eig Or) /\ finds_lowest (gr_eig Or) /\ sorts_reals (gr_sort Or) /\
  gp_orth p = Some [q] /\ std_cop Pauli q /\ gp_trans p = None /\
  selected_ci_greedy Or p fuel init [H] n thr x = Ok (best, bestn, ops, norms) /\
  (forall (A : StarAlg) (Sc : RScal A) (g : op -> Z -> A), rep Pauli g -> clincomb Sc g (c_terms best) == clincomb Sc g (c_terms q)) /\
  inner (c_coeffs q) (c_coeffs q) = RtoC 1.
Proof.
  exists gi_H, go_or, go_p, go_q, 0, gi_init, 1, 0%R, cache_empty, gi_Z, (Some 0%R), [gi_Z], [0%R].
  split; [apply gi_std_H|]. split; [apply gi_std_init|]. split; [constructor|]. split; [apply go_real|]. split; [apply go_lowest|]. split; [apply argsort_sorts|].
  split; [reflexivity|]. split.
  { split; [|intros s [<-|[]]; left; reflexivity]. split; [apply (built_new [sZ1]); reflexivity|]. split; [reflexivity|]. split; [reflexivity|]. intros s [<-|[]]; apply ok_Z1. }
  split; [reflexivity|]. split; [apply go_run|]. split.
  - intros A Sc g Hr. unfold c_terms, gi_Z, go_q. cbn [c_coeffs c_basis b_strings combine c78_basis]. rewrite !clin_cons, cs_0. apply aadd_0_l.
  - cbn. apply injective_projections; cbn; ring.
Qed.
Print Assumptions C98_refuted.

(** C99: the com_ops after the first are not explored: when their strings differ from the ones of
    the first Operator, they do not enter the matrix, and the Operator returned does not minimise
    the sum of the squared norms of the commutators.  Here com_ops = [Z_2, X_1]: Z_1 is returned,
    whose commutator with X_1 is not zero, although X_1 commutes with both. *)
Definition gm_H1 : Operator := mkOperator [g1] (mkBasis [sZ2] [(sZ2, 0)]) Pauli.
Definition gm_H2 : Operator := mkOperator [g1] (mkBasis [sX1] [(sX1, 0)]) Pauli.
Definition gm_L1 := Eval vm_compute in fst (fst (ex_get (explore c78_basis gm_H1 cache_empty None))).
Definition gm_x1 := Eval vm_compute in snd (ex_get (explore c78_basis gm_H1 cache_empty None)).
Definition gm_x2 := Eval vm_compute in snd (ex_get (explore basis_empty gm_H1 gm_x1 None)).
Definition gm_x3 := Eval vm_compute in snd (ex_get (explore basis_empty gm_H2 gm_x2 None)).
Definition gm_L4 := Eval vm_compute in fst (fst (ex_get (explore c78_basis gm_H1 gm_x3 None))).
Definition gm_x4 := Eval vm_compute in snd (ex_get (explore c78_basis gm_H1 gm_x3 None)).
Definition gm_L5 := Eval vm_compute in fst (fst (ex_get (explore c78_basis gm_H2 gm_x4 None))).
Definition gm_x5 := Eval vm_compute in snd (ex_get (explore c78_basis gm_H2 gm_x4 None)).
Lemma gm_e1 : explore c78_basis gm_H1 cache_empty None = Ok (gm_L1, basis_empty, gm_x1). Proof. vm_compute. reflexivity. Qed.
Lemma gm_e2 : explore basis_empty gm_H1 gm_x1 None = Ok (mkSM 0 0 [], basis_empty, gm_x2). Proof. vm_compute. reflexivity. Qed.
Lemma gm_e3 : explore basis_empty gm_H2 gm_x2 None = Ok (mkSM 0 0 [], basis_empty, gm_x3). Proof. vm_compute. reflexivity. Qed.
Lemma gm_e4 : explore c78_basis gm_H1 gm_x3 None = Ok (gm_L4, basis_empty, gm_x4). Proof. vm_compute. reflexivity. Qed.
Lemma gm_e5 : explore c78_basis gm_H2 gm_x4 None = Ok (gm_L5, basis_empty, gm_x5). Proof. vm_compute. reflexivity. Qed.
Definition gm_pairs : list (R * vec) := [(0%R, [RtoC 0; RtoC 1]); (0%R, [RtoC 1; RtoC 0])].
Definition gm_or : groracles := mkGOr (solver_of (rzero 2) gm_pairs) argsort.
Lemma gm_real : real_solver (gr_eig gm_or).
Proof.
  apply solver_real. intros l v [E|[E|[]]]; injection E as <- <-; (split; [reflexivity|]); (split; [intros z [<-|[<-|[]]]; reflexivity|]); (split; [unfold norm2c; cbn; lra|]);
    cbn; unfold csum; cbn; repeat (match goal with |- _ :: _ = _ :: _ => f_equal end); apply injective_projections; cbn; ring.
Qed.
Lemma gm_lowest : finds_lowest (gr_eig gm_or).
Proof. apply solver_lowest. intros [|[a b] [|[c d] [|e w]]] Lw Rw; try discriminate. cbn. lra. Qed.
Lemma gm_grow : grow_commutators gm_or gm_H1 [gm_H1; gm_H2] 1 c78_basis gi_init cache_empty = Ok (c78_basis, gm_x3).
Proof.
  unfold grow_commutators. rewrite gm_e1. cbn [rbind]. change (negb (length (c_coeffs gi_init) =? sm_cols gm_L1)) with false. cbv beta iota zeta.
  change (rows_vec (dense_rows gm_L1) (c_coeffs gi_init)) with (@nil C). change (largest_first gm_or []) with (@nil nat). cbn [length Nat.min firstn].
  change (take (b_strings basis_empty) []) with (Ok (@nil OS)). cbn [rbind]. change (basis_new []) with (Ok basis_empty). cbn [rbind]. change (take (@nil C) []) with (Ok (@nil C)).
  cbn [rbind rfold]. unfold grow_com at 1. cbn [snd fst]. rewrite gm_e2. cbn [rbind]. cbv beta iota zeta.
  match goal with |- context [add_terms ?k ?e ?i ?n ?b] => change (add_terms k e i n b) with (Ok c78_basis) end. cbn [rbind]. unfold grow_com. cbn [fst snd]. rewrite gm_e3. reflexivity.
Qed.
Lemma gm_find : find_vectors gm_or gi_p [gm_H1; gm_H2] c78_basis gm_x3 = Ok (gm_pairs, gm_x5).
Proof.
  assert (Z4 : rreal (gram (dense_cols gm_L4)) = rzero 2) by reflexivity. assert (Z5 : rreal (gram (dense_cols gm_L5)) = rzero 2) by reflexivity.
  assert (ZZ : radd (rzero 2) (rzero 2) = rzero 2) by (apply (radd_zero 2); [reflexivity|]; intros v [<-|[<-|[]]]; reflexivity).
  unfold find_vectors. cbn [rfold]. unfold com_step at 1. rewrite gm_e4. cbn [rbind]. rewrite Z4. unfold com_step. change (basis_len c78_basis) with 2. rewrite ZZ, gm_e5. cbn [rbind]. rewrite Z5, ZZ.
  cbn [gp_orth gi_p gp_trans rbind]. cbn [rbind gp_vecs gi_p Nat.ltb Nat.leb orb]. cbn [gm_or gr_eig]. rewrite solver_hit. cbn [rbind length Nat.ltb Nat.leb orb].
  unfold gm_pairs. cbn [map snd].
  replace (expectation (rzero 2) [RtoC 1; RtoC 0]) with 0%R by (unfold expectation; cbn; lra).
  replace (expectation (rzero 2) [RtoC 0; RtoC 1]) with 0%R by (unfold expectation; cbn; lra).
  unfold sort_pairs. cbn [map fst]. change (gr_sort gm_or) with argsort. replace (argsort [Rabs 0; Rabs 0]) with [0; 1]; [reflexivity|].
  unfold argsort. cbn. destruct (Rle_lt_dec (Rabs 0) (Rabs 0)) as [F|F]; auto. lra.
Qed.
Lemma gm_run : selected_ci_greedy gm_or gi_p 0 gi_init [gm_H1; gm_H2] 1 0 cache_empty = Ok (gi_Z, Some 0%R, [gi_Z], [0%R]).
Proof.
  unfold selected_ci_greedy. change (forallb _ (b_strings (o_basis gm_H1))) with false. change (basis_iadd basis_empty (c_basis gi_init)) with c78_basis.
  cbn [greedy_loop g_end]. unfold greedy_step. cbn [g_basis g_op g_cache nth_error gp_nH gi_p of_option rbind].
  rewrite gm_grow. cbn [rbind gp_nO gi_p]. rewrite (gi_anti gm_or eq_refl). cbn [rbind gp_trans gi_p]. rewrite gm_find. cbn [rbind nth_error of_option gm_pairs].
  cbn [worse g_bestn gi_p gp_minrel improves g_thr]. change (cop_new [RtoC 0; RtoC 1] (b_strings c78_basis) None) with (Ok gi_Z). cbn [rbind gp_sizes gi_p nth_error of_option].
  rewrite (gi_truncate gm_or eq_refl). cbn [rbind]. reflexivity.
Qed.
Lemma gm_std1 : std_op Pauli gm_H1.
Proof. split; [apply (good_op_intro Pauli [g1] [sZ2]); try reflexivity; intros s [<-|[]]; apply ok_Z2|]. intros s [<-|[]]. left; reflexivity. Qed.
Lemma gm_std2 : std_op Pauli gm_H2.
Proof. split; [apply (good_op_intro Pauli [g1] [sX1]); try reflexivity; intros s [<-|[]]; apply ok_X1|]. intros s [<-|[]]. left; reflexivity. Qed.
Definition gm_X : COp := mkCOp [RtoC 1; RtoC 0] c78_basis Pauli.
Definition gm_L6 := Eval vm_compute in fst (fst (ex_get (explore c78_basis gm_H2 cache_empty None))).
Definition gm_E6 := Eval vm_compute in snd (fst (ex_get (explore c78_basis gm_H2 cache_empty None))).
Definition gm_x6 := Eval vm_compute in snd (ex_get (explore c78_basis gm_H2 cache_empty None)).
Lemma gm_e6 : explore c78_basis gm_H2 cache_empty None = Ok (gm_L6, gm_E6, gm_x6). Proof. vm_compute. reflexivity. Qed.
Lemma gm_norm1 o e : b_strings (c_basis o) = b_strings c78_basis -> norm2c (mat_vec 0 (dense_cols gm_L1) (c_coeffs o)) = e -> commutator_norm Pauli gm_H1 o e.
Proof. intros Eb <-. apply (explored_norm _ _ c78_basis gm_L1 basis_empty gm_x1); [discriminate | apply gm_std1 | apply gi_std_basis | apply gm_e1 | auto]. Qed.
Lemma gm_norm2 o e : b_strings (c_basis o) = b_strings c78_basis -> norm2c (mat_vec 1 (dense_cols gm_L6) (c_coeffs o)) = e -> commutator_norm Pauli gm_H2 o e.
Proof. intros Eb <-. apply (explored_norm _ _ c78_basis gm_L6 gm_E6 gm_x6); [discriminate | apply gm_std2 | apply gi_std_basis | apply gm_e6 | auto]. Qed.
Theorem C99_refuted : exists H1 H2 Or p fuel init n thr x best bestn ops norms q,
  std_op Pauli H1 /\ std_op Pauli H2 /\ std_cop Pauli init /\ explored Pauli H1 x /\ real_solver (gr_eig Or) /\ finds_lowest (gr_eig Or) /\ sorts_reals (gr_sort Or) /\
  gp_orth p = None /\ gp_trans p = None /\
  selected_ci_greedy Or p fuel init [H1; H2] n thr x = Ok (best, bestn, ops, norms) /\
  commutator_norm Pauli H1 best 0 /\ commutator_norm Pauli H2 best 4 /\
  std_cop Pauli q /\ b_strings (c_basis q) = b_strings (c_basis best) /\ real_vec (c_coeffs q) /\ norm2c (c_coeffs q) = 1%R /\ commutator_norm Pauli H1 q 0 /\ commutator_norm Pauli H2 q 0.
Proof.
  exists gm_H1, gm_H2, gm_or, gi_p, 0, gi_init, 1, 0%R, cache_empty, gi_Z, (Some 0%R), [gi_Z], [0%R], gm_X.
  split; [apply gm_std1|]. split; [apply gm_std2|]. split; [apply gi_std_init|]. split; [constructor|]. split; [apply gm_real|]. split; [apply gm_lowest|]. split; [apply argsort_sorts|].
  split; [reflexivity|]. split; [reflexivity|]. split; [apply gm_run|].
  assert (N2 : forall a b, norm2c (mat_vec 1 (dense_cols gm_L6) [RtoC a; RtoC b]) = (4 * b * b)%R).
  { intros a b. unfold norm2c. cbn -[Q2R]. unfold to_C. cbn. unfold Q2R. cbn. field. }
  split; [apply gm_norm1; reflexivity|]. split; [apply gm_norm2; [reflexivity|]; etransitivity; [apply (N2 0%R 1%R)|ring]|].
  split. { split; [|intros s [<-|[<-|[]]]; left; reflexivity]. split; [apply c78_good_basis|]. split; [reflexivity|]. split; [reflexivity|]. apply c78_good_basis. }
  split; [reflexivity|]. split; [intros z [<-|[<-|[]]]; reflexivity|]. split; [unfold norm2c; cbn; lra|].
  split; [apply gm_norm1; reflexivity|]. apply gm_norm2; [reflexivity|]. etransitivity; [apply (N2 1%R 0%R)|ring].
Qed.
Print Assumptions C99_refuted.
