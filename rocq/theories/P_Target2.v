(** Property C103: the search of selected_ci_greedy with target_operator. *)
From Coq Require Import String List ZArith Bool Arith Lia Permutation Reals QArith Qreals Qcanon Lra.
From Coquelicot Require Import Complex.
From Verif Require Import GC Exn M_OpString M_Tools M_Algebra M_Basis M_OpAlg M_Transform M_LinAlg M_Explore M_Core M_Greedy M_Target
  S_Alg S_Den S_Basis S_Built S_OpAlg S_Explore S_RScal S_CFock S_CScal S_LinAlg S_Core S_Greedy S_Fidelity S_Search S_Target S_Target2
  L_Alg L_Basis L_PropBasis L_PropStr L_PropOpAlg L_Explore L_Explore2 L_Explore3 L_Explore4 L_CScal L_CFock L_Lie L_LinAlg L_Inter L_Herm L_Core L_Commuting L_Greedy1 L_Greedy2 L_Greedy3 L_Greedy4 L_Search L_Search2 L_Fidelity
  P_Core P_Default P_Greedy P_Search P_Fidelity L_Target L_Target2 P_Target.
Import ListNotations.
Local Open Scope nat_scope.

(** C103: what the search with a [target_operator] does, step by step: how it grows the
    Operator, which overlaps it compares, which terms it keeps, when it halves the threshold and
    when it stops. *)
Theorem C103_search : forall ty H Or p fuel init tgt tf k n thr x best bestn ops norms,
  ty <> Fermion -> std_op ty H -> std_cop ty init -> std_cop ty tgt -> real_vec (c_coeffs tgt) -> explored ty H x ->
  real_solver (gr_eig Or) -> orthonormal_solver (gr_eig Or) -> finds_lowest (gr_eig Or) -> sorts_reals (gr_sort Or) -> gp_trans p = None -> gp_orth p = None ->
  selected_ci_target Or p fuel init [H] tgt tf k n thr x = Ok (Some (best, bestn, ops, norms)) ->
  target_search ty H (gp_nH p) (gp_sizes p) (gp_nO p) (gp_target p) (gp_minrel p) tgt tf n 0 (c_terms init) thr init None ops norms.
Proof.
  intros ty H Or p fuel init tgt tf k n thr x best bestn ops norms Hty HH Hi Ht Rt Hx Heig Hort Hlow Hsort Hpt Hpo E.
  unfold selected_ci_target in E. destruct (forallb _ _); [discriminate|].
  match type of E with context [rbind ?a _] => destruct a as [[st|]|] eqn:El; try discriminate end. cbn [rbind] in E. injection E as <- <- <- <-.
  set (g := mkG (basis_iadd basis_empty (c_basis init)) init x [] [] init None thr false) in *.
  assert (Al : aligned g).
  { destruct Hi as [(Hb & Hl & _) _]. unfold g. rewrite basis_iadd_empty by (apply L_PropBasis.built_ok; auto). split; auto. }
  assert (Ht0 : tstate_ok ty H init 0 (t_g (mkT g (gp_vecs p)))) by (split; [apply start_ok; auto | auto]).
  destruct (target_loop_search ty H Hty HH Or p Heig Hort Hlow Hsort Hpt Hpo fuel init tgt tf Ht Rt k n 0 _ _ Ht0 Al eq_refl ltac:(lia) El) as (os & es & K1 & K2 & K3).
  cbn [t_g g_ops g_norms app] in K1, K2. rewrite K1, K2. exact K3.
Qed.
Print Assumptions C103_search.

Lemma tg_lowest : finds_lowest tg_eig.
Proof.
  assert (B : forall nv M, below M 4 \/ tg_eig nv M = []).
  { intros nv M. destruct (tg_cases nv M) as [[_ ->]|[[_ ->]|E]]; [left|left|right; exact E].
    - intros [|a [|b [|c w]]] L Rw; try discriminate. assert (Ra : snd a = 0%R) by (apply Rw; left; auto). assert (Rb : snd b = 0%R) by (apply Rw; right; left; auto).
      destruct a as [a a'], b as [b b']. cbn in Ra, Rb. subst. unfold norm2c. cbn. unfold csum. cbn. nra.
    - intros [|a [|b w]] L Rw; try discriminate. assert (Ra : snd a = 0%R) by (apply Rw; left; auto). destruct a as [a a']. cbn in Ra. subst. unfold norm2c. cbn. unfold csum. cbn. nra. }
  intros M _. split.
  - intros l v ps E. destruct (B None M) as [Q|Q]; [|congruence]. destruct (tg_cases None M) as [[F _]|[[F _]|F]]; rewrite F in E; [injection E as <- _ _; auto|injection E as <- _ _; auto|discriminate].
  - intros k Ne. destruct (B (Some k) M) as [Q|Q]; [|contradiction]. exists 4%R. destruct (tg_cases (Some k) M) as [[F _]|[[F _]|F]]; [| |exfalso; apply Ne; exact F]; rewrite F; eexists; (split; [left; reflexivity | exact Q]).
Qed.
Example C103_search_example : finds_lowest (gr_eig tg_or) /\
  target_search Pauli tg_H (gp_nH tg_p) (gp_sizes tg_p) (gp_nO tg_p) (gp_target tg_p) (gp_minrel tg_p) tg_init None 1 0 (c_terms tg_init) 0 tg_init None [tg_O] [10%R].
Proof.
  split; [apply tg_lowest|]. destruct C103_example as (E1 & E2 & E3 & E4 & E5 & E6 & E7 & E8 & E9).
  apply (C103_search Pauli tg_H tg_or tg_p 0 tg_init tg_init None 1 1 0 cache_empty tg_O (Some 10%R) [tg_O] [10%R]); auto; [discriminate | apply tg_lowest].
Qed.
