(** Properties C106-C107: selected_ci_greedy_many_ops. *)
From Coq Require Import String List ZArith Bool Arith Lia Permutation Sorted Reals QArith Qreals Qcanon Lra.
From Coquelicot Require Import Complex.
From Verif Require Import GC Exn M_OpString M_Tools M_Algebra M_Basis M_OpAlg M_Transform M_LinAlg M_Explore M_Core M_Greedy M_ManyOps
  S_Alg S_Den S_Basis S_Built S_OpAlg S_Explore S_RScal S_CFock S_CScal S_LinAlg S_Core S_Greedy S_Search S_ManyOps
  L_Alg L_Basis L_Operator L_Heap L_PropBasis L_PropStr L_PropOpAlg L_Explore L_Explore2 L_Explore3 L_Explore4 L_CScal L_CFock L_Lie L_LinAlg L_Inter L_Herm L_Core L_Commuting L_Diag2
  L_Greedy1 L_Greedy2 L_Greedy3 L_Greedy4 L_Search L_Search2 L_Trans8 P_Core P_Default P_Greedy P_Search.
Import ListNotations.
Local Open Scope nat_scope.

Lemma truncate_cop_ok ty Or o thr size o' : ty <> Fermion -> sorts_reals (gr_sort Or) -> std_cop ty o -> truncate_cop Or o thr size = Ok o' ->
  std_cop ty o' /\ picks size (fun t => (thr < Cmod (fst t))%R) (c_terms o) (c_terms o').
Proof.
  intros Hty Hsort Ho E. unfold truncate_cop in E. destruct (gtruncate Or (c_basis o) (c_coeffs o) thr size) as [b|] eqn:Eg; [|discriminate]. cbn [rbind] in E.
  pose proof Ho as [(Bb & Lc & Tt & Ts) Std].
  assert (Hb : std_basis ty (c_basis o)) by (split; [split; auto | auto]).
  destruct (gtruncate_spec ty Or Hsort _ _ _ _ _ Hb Lc Eg) as (Hb' & kept & K1 & K2).
  destruct (rmap _ (b_strings b)) as [cs|] eqn:Ec; [|discriminate]. cbn [rbind] in E.
  assert (Lcs : length cs = length (b_strings b)) by exact (rmap_length _ _ _ Ec).
  assert (Fcs : cs = map fst kept).
  { rewrite K2 in Ec. destruct K1 as (inds & F & _). clear - Ec F Hb. revert cs Ec. induction F as [|i [c s] inds kept Hi F IH]; intros cs Ec; cbn [map rmap] in Ec; [injection Ec as <-; auto|].
    apply combine_nth_error in Hi. destruct Hi as [Hi1 Hi2]. cbn [snd] in Ec.
    assert (Bi : basis_index (c_basis o) s = Ok i) by (apply std_basis_ok in Hb; apply (basis_ok_index _ s i (proj1 Hb)); exists s; split; auto; apply same_key_refl).
    rewrite Bi in Ec. cbn [rbind] in Ec. rewrite Hi1 in Ec. cbn [of_option rbind] in Ec. destruct (rmap _ (map snd kept)) as [cs'|]; [|discriminate]. cbn [rbind] in Ec. injection Ec as <-.
    cbn [map fst]. f_equal. apply IH; auto. }
  pose proof (proj2 (proj1 (std_basis_ok ty b) Hb')) as Hs.
  assert (Ne : b_strings b <> []).
  { intros F. rewrite F in E. unfold cop_new in E. destruct (basis_new []) as [b0|] eqn:E0; [|discriminate]. cbn [rbind] in E. destruct (basis_new_ok _ _ E0) as [Q _]. rewrite Q in E. discriminate. }
  destruct (cop_new_std ty _ _ _ _ Hs E) as (O1 & O2 & O3). split; [auto|].
  replace (c_terms o') with kept; auto. unfold c_terms. rewrite O1, O2, Fcs, K2. clear. induction kept as [|[c s] l IH]; cbn; auto. f_equal; auto.
Qed.

Section Many.
  Variables (ty : optype) (H : Operator) (Or : groracles) (fuel : nat) (thr : R) (m : max_size) (nHs : list nat) (nO size0 : nat) (sizes : list nat).
  Hypotheses (Hty : ty <> Fermion) (HH : std_op ty H) (Heig : real_solver (gr_eig Or)) (Hsort : sorts_reals (gr_sort Or)) (Hm : forall k, m = Size k -> k = size0).

  Definition good_rec (nH step : nat) (c o : COp) (e : R) : Prop :=
    exists ts, (match step with 0 => ts = c_terms c | _ => picks size0 (fun t => (thr < Cmod (fst t))%R) (c_terms c) ts end) /\ recorded ty H nH nO ts o e.

  Lemma many_op_ok nH size step cur ops norms ind cur' ops' norms' : Forall (std_cop ty) cur -> many_op Or fuel H thr m nH nO size step (cur, ops, norms) ind = Ok (cur', ops', norms') ->
    exists c o e, nth_error cur ind = Some c /\ cur' = list_set cur ind o /\ ops' = ops ++ [o] /\ norms' = norms ++ [e] /\ good_rec nH step c o e /\ (step <> 0 -> m = Size size0).
  Proof.
    intros Hc E. unfold many_op in E. destruct (nth_error cur ind) as [c|] eqn:Ec; [|discriminate]. cbn [of_option rbind] in E.
    destruct (many_truncate Or thr m step c) as [c'|] eqn:Et; [|discriminate]. cbn [rbind] in E.
    assert (Sc : std_cop ty c) by (eapply Forall_forall; [exact Hc | eapply nth_error_In; eauto]).
    assert (T : std_cop ty c' /\ (match step with 0 => c_terms c' = c_terms c | _ => picks size0 (fun t => (thr < Cmod (fst t))%R) (c_terms c) (c_terms c') end) /\ (step <> 0 -> m = Size size0)).
    { unfold many_truncate in Et. destruct step as [|step]; [injection Et as <-; split; auto; split; auto; congruence|]. destruct m as [k|l] eqn:Em; [|discriminate].
      rewrite (Hm k eq_refl) in *. destruct (truncate_cop_ok ty Or c thr size0 c' Hty Hsort Sc Et); auto. }
    destruct T as (Sc' & T1 & T2).
    set (gp := mkGP [nH] nO [size] (Some (others cur ind)) None None None 1) in E.
    destruct (selected_ci_greedy Or gp fuel c' [H] 1 thr cache_empty) as [[[[best bestn] os] es]|] eqn:Eg; [|discriminate]. cbn [rbind] in E.
    assert (Hx : explored ty H cache_empty) by constructor.
    destruct (C95_greedy ty H [] Or gp fuel c' 1 thr cache_empty _ _ _ _ Hty HH (fun o F => match F with end) Sc' Hx Heig eq_refl Eg) as (F & _ & L1 & L2 & _).
    pose proof (C100_search ty H Or gp fuel c' 1 thr cache_empty _ _ _ _ Hty HH Sc' Hx Heig Hsort eq_refl Eg) as Se. cbn [gp gp_nH gp_sizes gp_nO gp_target gp_minrel] in Se.
    destruct os as [|o [|o2 os]]; [exfalso; apply L2; auto| |cbn in L1; lia]. inversion F as [|? e ? ? R F1]; subst. inversion F1; subst.
    cbn [last_of rev app nth_error of_option rbind] in E. unfold last_of in E. cbn [rev app nth_error of_option rbind] in E. injection E as <- <- <-.
    exists c, o, e. do 4 (split; [auto|]). split; [|auto]. cbn [search] in Se. destruct Se as ((nH' & N1 & N2) & _). cbn in N1. injection N1 as <-.
    exists (c_terms c'). split; [destruct step; auto|]. destruct R as (R1 & R2 & R3 & R4). split; auto.
  Qed.

  Lemma many_row_ok nH size step cur0 : Forall (std_cop ty) cur0 -> forall k a cur ops norms cur' ops' norms',
    length cur = length cur0 -> length ops = a -> length norms = a -> a + k = length cur0 -> Forall (std_cop ty) cur ->
    (forall j, j < a -> nth_error cur j = nth_error ops j) -> (forall j, a <= j -> nth_error cur j = nth_error cur0 j) ->
    (forall j c o e, nth_error cur0 j = Some c -> nth_error ops j = Some o -> nth_error norms j = Some e -> good_rec nH step c o e) ->
    rfold (many_op Or fuel H thr m nH nO size step) (seq a k) (cur, ops, norms) = Ok (cur', ops', norms') ->
    cur' = ops' /\ length ops' = length cur0 /\ length norms' = length cur0 /\ Forall (std_cop ty) ops' /\ (step <> 0 -> k <> 0 -> m = Size size0) /\
    (forall j c o e, nth_error cur0 j = Some c -> nth_error ops' j = Some o -> nth_error norms' j = Some e -> good_rec nH step c o e).
  Proof.
    intros H0. induction k as [|k IH]; intros a cur ops norms cur' ops' norms' L1 L2 L3 La Fc C1 C2 G E.
    - cbn [seq rfold] in E. injection E as <- <- <-. assert (Q : cur = ops).
      { apply L_Trans8.nth_error_ext. intros j. destruct (Nat.lt_ge_cases j a) as [Q|Q]; auto. rewrite !(proj2 (nth_error_None _ _)); auto; lia. }
      rewrite Q in *. do 3 (split; [auto; lia|]). split; [auto|]. split; [lia | auto].
    - cbn [seq rfold] in E. destruct (many_op _ _ _ _ _ _ _ _ _ _ a) as [[[cur1 ops1] norms1]|] eqn:Eo; [|discriminate]. cbn [rbind] in E.
      destruct (many_op_ok _ _ _ _ _ _ _ _ _ _ Fc Eo) as (c & o & e & N & -> & -> & -> & R & Em).
      destruct (IH (S a) (list_set cur a o) (ops ++ [o]) (norms ++ [e]) cur' ops' norms') as (I1 & I2 & I3 & I4 & I5 & I6); auto.
      + rewrite list_set_length. auto.
      + rewrite app_length. cbn. lia.
      + rewrite app_length. cbn. lia.
      + lia.
      + apply Forall_forall. intros q Hq. apply In_nth_error in Hq. destruct Hq as (j & Hj). rewrite list_set_nth in Hj. destruct (_ && _).
        * injection Hj as <-. destruct R as (ts & _ & R). apply R.
        * eapply Forall_forall; [exact Fc | eapply nth_error_In; eauto].
      + intros j Hj. rewrite list_set_nth. destruct (Nat.eqb_spec a j) as [<-|Nj].
        * rewrite (proj2 (Nat.ltb_lt _ _)) by lia. cbn [andb]. rewrite <- L2. symmetry. apply nth_app_last.
        * rewrite nth_error_app1 by lia. apply C1. lia.
      + intros j Hj. rewrite list_set_nth. destruct (Nat.eqb_spec a j) as [<-|Nj]; [lia|]. apply C2. lia.
      + intros j c1 o1 e1 Q1 Q2 Q3. destruct (Nat.lt_ge_cases j a) as [Q|Q].
        * rewrite nth_error_app1 in Q2, Q3 by lia. eapply G; eauto.
        * assert (j = a). { assert (j < length (ops ++ [o])) by (apply nth_error_Some; congruence). rewrite app_length in H1. cbn in H1. lia. } subst j.
          pose proof (nth_app_last ops o) as Z2. rewrite L2 in Z2. pose proof (nth_app_last norms e) as Z3. rewrite L3 in Z3. rewrite Z2 in Q2. rewrite Z3 in Q3. injection Q2 as <-. injection Q3 as <-. rewrite C2 in N by lia. rewrite N in Q1. injection Q1 as <-. auto.
      + do 4 (split; [auto|]). split; auto.
  Qed.

  Lemma many_steps_ok : forall n step cur ops norms, Forall (std_cop ty) cur -> many_steps Or fuel H thr m nHs nO sizes n step cur = Ok (ops, norms) ->
    many_found ty H nHs nO thr size0 step cur ops norms /\ length ops = n /\ (cur <> [] -> 1 < step + n -> 0 < n -> m = Size size0).
  Proof.
    induction n as [|n IH]; intros step cur ops norms Hc E; cbn [many_steps] in E; [injection E as <- <-; split; [exact I|split; [auto | lia]]|].
    match type of E with context [rbind ?a _] => destruct a as [[[cur' os] es]|] eqn:Er; [|discriminate] end. cbn [rbind] in E.
    destruct (many_steps Or fuel H thr m nHs nO sizes n (S step) cur') as [[rops rnorms]|] eqn:Es; [|discriminate]. cbn [rbind] in E. injection E as <- <-.
    destruct cur as [|c0 cur].
    - injection Er as <- <- <-. destruct (IH _ _ _ _ Hc Es) as (I1 & I2 & _). cbn [many_found length]. split; [|split; [lia | congruence]].
      split; auto. split; auto. split; auto. intros [|j] c o e F; discriminate.
    - set (l := c0 :: cur) in *. destruct (nth_error nHs step) as [nH|] eqn:EnH; [|discriminate]. cbn [of_option rbind] in Er.
      destruct (nth_error sizes step) as [size|]; [|discriminate]. cbn [of_option rbind] in Er.
      destruct (many_row_ok nH size step l Hc (length l) 0 l [] [] cur' os es) as (K1 & K2 & K3 & K4 & K5 & K6); auto; try (intros j Hj; lia).
      { intros [|j] c o e _ F; discriminate. }
      subst cur'. destruct (IH _ _ _ _ K4 Es) as (I1 & I2 & I3). cbn [many_found length]. split; [|split; [lia|]].
      + split; auto. split; auto. split; auto. intros j c o e N1 N2 N3. destruct (K6 j c o e N1 N2 N3) as (ts & T1 & T2). exists nH, ts. auto.
      + intros _ Q _. destruct step as [|step]; [|apply K5; auto; discriminate]. destruct n as [|n]; [lia|]. apply I3; try lia. intros F. rewrite F in K2. discriminate.
  Qed.
End Many.

(** C106: with several Operators, each Operator recorded in each step is real, normalised and
    recorded with the squared norm of its commutator with H; its strings are grown from the
    largest coefficients of the Operator with the same index in the step before.  With a list of
    sizes no more than one step is possible. *)
Theorem C106_many : forall ty H Or fuel inits n nHs nO thr size ops norms,
  ty <> Fermion -> std_op ty H -> Forall (std_cop ty) inits -> real_solver (gr_eig Or) -> sorts_reals (gr_sort Or) ->
  many_ops Or fuel inits H n nHs nO thr (Size size) = Ok (ops, norms) ->
  length ops = n /\ many_found ty H nHs nO thr size 0 inits ops norms.
Proof.
  intros ty H Or fuel inits n nHs nO thr size ops norms Hty HH Hi Heig Hsort E.
  destruct (many_steps_ok ty H Or fuel thr (Size size) nHs nO size (sizes_of (Size size) n) Hty HH Heig Hsort ltac:(congruence) n 0 inits ops norms Hi E) as (K1 & K2 & _). auto.
Qed.
Print Assumptions C106_many.
Theorem C106_list : forall ty H Or fuel inits n nHs nO thr sizes,
  ty <> Fermion -> std_op ty H -> Forall (std_cop ty) inits -> real_solver (gr_eig Or) -> sorts_reals (gr_sort Or) ->
  inits <> [] -> 1 < n -> exists e, many_ops Or fuel inits H n nHs nO thr (Sizes sizes) = Err e.
Proof.
  intros ty H Or fuel inits n nHs nO thr sizes Hty HH Hi Heig Hsort Ne Hn. destruct (many_ops Or fuel inits H n nHs nO thr (Sizes sizes)) as [[ops norms]|e] eqn:E; [|eauto].
  destruct (many_steps_ok ty H Or fuel thr (Sizes sizes) nHs nO 0 (sizes_of (Sizes sizes) n) Hty HH Heig Hsort ltac:(congruence) n 0 inits ops norms Hi E) as (_ & _ & F).
  discriminate (F Ne ltac:(lia) ltac:(lia)).
Qed.
Print Assumptions C106_list.

(** C107: orthogonalizing against the other Operators does not keep them apart: from X_1 + Z_1
    and Z_1 both recorded Operators are Z_1, although X_1 is in the basis of the first one. *)
Definition mo_M : list vec := [[RtoC large_number]].
Definition mo_ps : list (R * vec) := [(large_number, [RtoC 1])].
Definition mo_eig : eigensolver := fun nv M => if vecs_dec M go_super then go_pairs else if vecs_dec M mo_M then mo_ps else [].
Definition mo_or : groracles := mkGOr mo_eig argsort.
Definition mo_B : Basis := mkBasis [sZ1] [(sZ1, 0)].
Lemma mo_cases nv M : mo_eig nv M = go_pairs /\ M = go_super \/ mo_eig nv M = mo_ps /\ M = mo_M \/ mo_eig nv M = [].
Proof. unfold mo_eig. destruct (vecs_dec M go_super); auto. destruct (vecs_dec M mo_M); auto. Qed.
Lemma mo_hit nv : mo_eig nv go_super = go_pairs.
Proof. unfold mo_eig. destruct (vecs_dec go_super go_super); congruence. Qed.
Lemma mo_hit2 nv : mo_eig nv mo_M = mo_ps.
Proof. unfold mo_eig. destruct (vecs_dec mo_M go_super) as [F|]; [discriminate F|]. destruct (vecs_dec mo_M mo_M); congruence. Qed.
Lemma mo_real : real_solver mo_eig.
Proof.
  intros nv M l v _ Hin. destruct (mo_cases nv M) as [[E ->]|[[E ->]|E]]; rewrite E in Hin; [destruct Hin as [F|[F|[]]] | destruct Hin as [F|[]] | destruct Hin];
    injection F as <- <-; (split; [reflexivity|]); (split; [intros z [<-|Hz]; [reflexivity | try destruct Hz as [<-|[]]; try destruct Hz; reflexivity]|]);
    (split; [unfold norm2c; cbn; lra|]); cbn -[large_number]; unfold csum; cbn -[large_number]; repeat (match goal with |- _ :: _ = _ :: _ => f_equal end); apply injective_projections; cbn -[large_number]; ring.
Qed.
Lemma mo_lowest : finds_lowest mo_eig.
Proof.
  pose proof large_4 as L4.
  assert (B1 : below go_super 4).
  { intros [|a [|b [|c w]]] L Rw; try discriminate. assert (Ra : snd a = 0%R) by (apply Rw; left; auto). assert (Rb : snd b = 0%R) by (apply Rw; right; left; auto).
    destruct a as [a a'], b as [b b']. cbn in Ra, Rb. subst. unfold norm2c. cbn -[large_number]. nra. }
  assert (B2 : below mo_M large_number).
  { intros [|a [|b w]] L Rw; try discriminate. assert (Ra : snd a = 0%R) by (apply Rw; left; auto). destruct a as [a a']. cbn in Ra. subst. unfold norm2c. cbn -[large_number]. unfold csum. cbn -[large_number]. lra. }
  intros M _. split.
  - intros l v ps E. destruct (mo_cases None M) as [[F ->]|[[F ->]|F]]; rewrite F in E; [injection E as <- _ _; exact B1|injection E as <- _ _; exact B2|discriminate].
  - intros k Ne. destruct (mo_cases (Some k) M) as [[F ->]|[[F ->]|F]]; [| |exfalso; apply Ne; exact F]; rewrite F.
    + exists 4%R, [RtoC 1; RtoC 0]. split; [left; reflexivity | exact B1].
    + exists large_number, [RtoC 1]. split; [left; reflexivity | exact B2].
Qed.
Definition mo_p q : gparams := mkGP [1] 1 [2] (Some [q]) None None None 1.
Lemma mo_find1 : find_vectors mo_or (mo_p go_q) [gi_H] c78_basis gi_x2 = Ok ([(0%R, [RtoC 0; RtoC 1]); (4%R, [RtoC 1; RtoC 0])], gi_x3).
Proof.
  unfold find_vectors. cbn [rfold]. unfold com_step. rewrite gi_e3. cbn [rbind]. rewrite gi_matrix. change (basis_len c78_basis) with 2. rewrite gi_vzero.
  cbn [gp_orth mo_p gp_trans]. rewrite go_orth. cbn [rbind gp_vecs mo_p Nat.ltb Nat.leb orb]. cbn [mo_or gr_eig]. rewrite mo_hit. cbn [rbind length Nat.ltb Nat.leb orb].
  unfold go_pairs. cbn [map snd].
  replace (expectation c78_super [RtoC 1; RtoC 0]) with 4%R by (unfold expectation; cbn; lra).
  replace (expectation c78_super [RtoC 0; RtoC 1]) with 0%R by (unfold expectation; cbn; lra).
  unfold sort_pairs. cbn [map fst]. change (gr_sort mo_or) with argsort. replace (argsort [Rabs 4; Rabs 0]) with [1; 0]; [reflexivity|].
  unfold argsort. cbn. destruct (Rle_lt_dec (Rabs 4) (Rabs 0)) as [F|F]; auto. rewrite Rabs_R0, Rabs_right in F; lra.
Qed.
Lemma mo_run1 : selected_ci_greedy mo_or (mo_p go_q) 0 gi_init [gi_H] 1 0 cache_empty = Ok (gi_Z, Some 0%R, [gi_Z], [0%R]).
Proof.
  unfold selected_ci_greedy. change (forallb _ (b_strings (o_basis gi_H))) with false. change (basis_iadd basis_empty (c_basis gi_init)) with c78_basis.
  cbn [greedy_loop g_end]. unfold greedy_step. cbn [g_basis g_op g_cache nth_error gp_nH mo_p of_option rbind].
  rewrite (gi_grow mo_or eq_refl). cbn [rbind gp_nO mo_p]. rewrite (gi_anti mo_or eq_refl). cbn [rbind gp_trans mo_p]. fold (mo_p go_q). rewrite mo_find1. cbn [rbind nth_error of_option].
  cbn [worse g_bestn mo_p gp_minrel improves g_thr]. change (cop_new [RtoC 0; RtoC 1] (b_strings c78_basis) None) with (Ok gi_Z). cbn [rbind gp_sizes mo_p nth_error of_option].
  rewrite (gi_truncate mo_or eq_refl). cbn [rbind]. reflexivity.
Qed.
Definition mo_x1 := Eval vm_compute in snd (ex_get (explore mo_B gi_H cache_empty None)).
Definition mo_L1 := Eval vm_compute in fst (fst (ex_get (explore mo_B gi_H cache_empty None))).
Lemma mo_e1 : explore mo_B gi_H cache_empty None = Ok (mo_L1, basis_empty, mo_x1). Proof. vm_compute. reflexivity. Qed.
Definition mo_x2 := Eval vm_compute in snd (ex_get (explore basis_empty gi_H mo_x1 None)).
Lemma mo_e2 : explore basis_empty gi_H mo_x1 None = Ok (mkSM 0 0 [], basis_empty, mo_x2). Proof. vm_compute. reflexivity. Qed.
Definition mo_x3 := Eval vm_compute in snd (ex_get (explore mo_B gi_H mo_x2 None)).
Lemma mo_e3 : explore mo_B gi_H mo_x2 None = Ok (mo_L1, basis_empty, mo_x3). Proof. vm_compute. reflexivity. Qed.
Lemma mo_grow : grow_commutators mo_or gi_H [gi_H] 1 mo_B go_q cache_empty = Ok (mo_B, mo_x2).
Proof.
  unfold grow_commutators. rewrite mo_e1. cbn [rbind]. change (negb (length (c_coeffs go_q) =? sm_cols mo_L1)) with false. cbv beta iota zeta.
  change (rows_vec (dense_rows mo_L1) (c_coeffs go_q)) with (@nil C). change (largest_first mo_or []) with (@nil nat). cbn [length Nat.min firstn].
  change (take (b_strings basis_empty) []) with (Ok (@nil OS)). cbn [rbind]. change (basis_new []) with (Ok basis_empty). cbn [rbind].
  change (take (@nil C) []) with (Ok (@nil C)). cbn [rbind rfold]. unfold grow_com. cbn [snd fst]. rewrite mo_e2. reflexivity.
Qed.
Lemma mo_anti : grow_anticommutators mo_or 1 go_q mo_B = Ok mo_B.
Proof.
  unfold grow_anticommutators. cbn [c_coeffs go_q length Nat.min c_basis]. change (largest_first mo_or [RtoC 1]) with [0]. vm_compute. reflexivity.
Qed.
Lemma mo_matrix : rreal (gram (dense_cols mo_L1)) = [[RtoC 0]].
Proof. reflexivity. Qed.
Lemma mo_orth : orthogonalize_com_matrix [[RtoC 0]] mo_B [gi_Z] = Ok mo_M.
Proof.
  unfold orthogonalize_com_matrix. replace (rmap (orth_vector mo_B) [gi_Z]) with (Ok [[RtoC 1]]).
  - cbn [rbind]. f_equal. unfold mo_M. cbn -[large_number]. repeat (match goal with |- _ :: _ = _ :: _ => f_equal end); apply injective_projections; cbn -[large_number]; ring.
  - cbn [rmap]. unfold orth_vector. change (filter _ (c_terms gi_Z)) with [(RtoC 1, sZ1)]. cbn [rmap snd fst]. change (basis_index mo_B sZ1) with (Ok 0).
    cbn [rbind]. cbn. unfold csum. cbn. do 2 f_equal. repeat (match goal with |- _ :: _ = _ :: _ => f_equal end); apply injective_projections; cbn; ring.
Qed.
Lemma mo_find2 : find_vectors mo_or (mo_p gi_Z) [gi_H] mo_B mo_x2 = Ok ([(0%R, [RtoC 1])], mo_x3).
Proof.
  unfold find_vectors. cbn [rfold]. unfold com_step. rewrite mo_e3. cbn [rbind]. rewrite mo_matrix. change (basis_len mo_B) with 1.
  replace (radd (rzero 1) [[RtoC 0]]) with [[RtoC 0]] by (cbn; repeat f_equal; apply injective_projections; cbn; ring).
  cbn [gp_orth mo_p gp_trans]. rewrite mo_orth. cbn [rbind gp_vecs mo_p Nat.ltb Nat.leb orb]. cbn [mo_or gr_eig]. rewrite mo_hit2. cbn [rbind length Nat.ltb Nat.leb orb].
  unfold mo_ps. cbn [map snd]. replace (expectation [[RtoC 0]] [RtoC 1]) with 0%R by (unfold expectation; cbn; lra). reflexivity.
Qed.
Lemma mo_truncate : gtruncate mo_or mo_B [RtoC 1] 0 2 = Ok mo_B.
Proof.
  unfold gtruncate. change (largest_first mo_or [RtoC 1]) with [0]. cbn [rmap nth_error of_option rbind filter snd].
  rewrite (proj2 (lt_dec_true 0 (Cmod (RtoC 1)))) by (rewrite Cmod_1; lra). reflexivity.
Qed.
Lemma mo_run2 : selected_ci_greedy mo_or (mo_p gi_Z) 0 go_q [gi_H] 1 0 cache_empty = Ok (go_q, Some 0%R, [go_q], [0%R]).
Proof.
  unfold selected_ci_greedy. change (forallb _ (b_strings (o_basis gi_H))) with false. change (basis_iadd basis_empty (c_basis go_q)) with mo_B.
  cbn [greedy_loop g_end]. unfold greedy_step. cbn [g_basis g_op g_cache nth_error gp_nH mo_p of_option rbind].
  rewrite mo_grow. cbn [rbind gp_nO mo_p]. rewrite mo_anti. cbn [rbind gp_trans mo_p]. fold (mo_p gi_Z). rewrite mo_find2. cbn [rbind nth_error of_option].
  cbn [worse g_bestn mo_p gp_minrel improves g_thr]. change (cop_new [RtoC 1] (b_strings mo_B) None) with (Ok go_q). cbn [rbind gp_sizes mo_p nth_error of_option].
  rewrite mo_truncate. cbn [rbind]. reflexivity.
Qed.
Lemma mo_std_q : std_cop Pauli go_q.
Proof. split; [|intros s [<-|[]]; left; reflexivity]. split; [apply (built_new [sZ1]); reflexivity|]. split; [reflexivity|]. split; [reflexivity|]. intros s [<-|[]]; apply ok_Z1. Qed.
Lemma mo_run : many_ops mo_or 0 [gi_init; go_q] gi_H 1 [1] 1 0 (Size 2) = Ok ([[gi_Z; go_q]], [[0%R; 0%R]]).
Proof.
  unfold many_ops. cbn [many_steps sizes_of repeat nth_error of_option rbind length seq rfold]. unfold many_op at 1. change (others [gi_init; go_q] 0) with [go_q].
  cbn [nth_error of_option rbind many_truncate]. change (mkGP [1] 1 [2] (Some [go_q]) None None None 1) with (mo_p go_q). rewrite mo_run1. cbn [rbind].
  change (last_of [gi_Z]) with (Ok gi_Z). change (last_of [0%R]) with (Ok 0%R). cbn [rbind list_set app]. unfold many_op. change (others [gi_Z; go_q] 1) with [gi_Z].
  cbn [nth_error of_option rbind many_truncate]. change (mkGP [1] 1 [2] (Some [gi_Z]) None None None 1) with (mo_p gi_Z). rewrite mo_run2. reflexivity.
Qed.
Example C106_example : Forall (std_cop Pauli) [gi_init; go_q] /\ std_op Pauli gi_H /\ real_solver (gr_eig mo_or) /\ sorts_reals (gr_sort mo_or) /\
  many_ops mo_or 0 [gi_init; go_q] gi_H 1 [1] 1 0 (Size 2) = Ok ([[gi_Z; go_q]], [[0%R; 0%R]]).
Proof.
  split; [constructor; [apply gi_std_init | constructor; [apply mo_std_q | constructor]]|]. split; [apply gi_std_H|]. split; [apply mo_real|]. split; [apply argsort_sorts | apply mo_run].
Qed.
Local Open Scope alg_scope.
Theorem C107_refuted : exists H Or fuel i1 i2 nHs nO thr size o1 o2 e1 e2,
  std_op Pauli H /\ std_cop Pauli i1 /\ std_cop Pauli i2 /\ real_solver (gr_eig Or) /\ finds_lowest (gr_eig Or) /\ sorts_reals (gr_sort Or) /\
  many_ops Or fuel [i1; i2] H 1 nHs nO thr (Size size) = Ok ([[o1; o2]], [[e1; e2]]) /\
  c_terms i1 = [(RtoC 1, sX1); (RtoC 1, sZ1)] /\ c_terms i2 = [(RtoC 1, sZ1)] /\ In sX1 (b_strings (c_basis o1)) /\
  forall (A : StarAlg) (Sc : RScal A) (g : op -> Z -> A), rep Pauli g -> clincomb Sc g (c_terms o1) == clincomb Sc g (c_terms o2).
Proof.
  exists gi_H, mo_or, 0, gi_init, go_q, [1], 1, 0%R, 2, gi_Z, go_q, 0%R, 0%R.
  split; [apply gi_std_H|]. split; [apply gi_std_init|]. split; [apply mo_std_q|]. split; [apply mo_real|]. split; [apply mo_lowest|]. split; [apply argsort_sorts|].
  split; [apply mo_run|]. split; [reflexivity|]. split; [reflexivity|]. split; [left; reflexivity|].
  intros A Sc g Hr. unfold c_terms, gi_Z, go_q. cbn [c_coeffs c_basis b_strings combine c78_basis]. rewrite !clin_cons, cs_0. apply aadd_0_l.
Qed.
Print Assumptions C107_refuted.
