(** Property C89: generate with its default options misses operators. *)
From Coq Require Import String List ZArith Bool Arith Lia Reals QArith Qcanon Lra.
From Coquelicot Require Import Complex.
From Verif Require Import GC Exn M_OpString M_Tools M_Algebra M_Basis M_OpAlg M_Transform M_LinAlg M_Core
  S_Alg S_Den S_Basis S_Built S_OpAlg S_Transform S_RScal S_CFock S_CScal S_LinAlg S_Core S_Invariant S_Sparsify S_Generate S_Cumulative
  L_PropStr L_Alg L_StrAlg L_Basis L_OpAlg L_PropOpAlg L_CScal L_CFock L_LinAlg L_Inter L_Herm L_Core L_Commuting L_Trans1 L_Trans2 L_Trans5 L_Trans6 L_PartIso L_Invariant3 L_Sparsify L_Generate L_Generate2 L_LU
  L_Dim L_Cumulative L_Cumul2 L_Cumul3 L_Cumul4 P_Core P_Invariant P_Sparsify P_Generate P_Cumulative.
Import ListNotations.
Local Open Scope nat_scope.
Local Open Scope alg_scope.

Definition h2 : R := (/ sqrt 2)%R.
Definition h3 : R := (/ sqrt 3)%R.
Lemma h2_sq : (h2 * h2 = / 2)%R.
Proof. unfold h2. rewrite <- Rinv_mult, sqrt_sqrt by lra. reflexivity. Qed.
Lemma h3_sq : (h3 * h3 = / 3)%R.
Proof. unfold h3. rewrite <- Rinv_mult, sqrt_sqrt by lra. reflexivity. Qed.
Lemma h2_bounds : (7 / 10 < h2 < 8 / 10)%R.
Proof. assert (0 < h2)%R by (apply Rinv_0_lt_compat, sqrt_lt_R0; lra). pose proof h2_sq. split; nra. Qed.
Lemma h3_bounds : (5 / 10 < h3 < 6 / 10)%R.
Proof. assert (0 < h3)%R by (apply Rinv_0_lt_compat, sqrt_lt_R0; lra). pose proof h3_sq. split; nra. Qed.
Lemma h23_bounds : (3 / 10 < h2 * h3 < 5 / 10)%R.
Proof. pose proof h2_bounds. pose proof h3_bounds. split; nra. Qed.
Lemma h_facts : (h2 * h2 = / 2 /\ h3 * h3 = / 3 /\ h2 * h2 * h3 = / 2 * h3 /\ h2 * h3 * h3 = / 3 * h2 /\ h2 * h2 * h3 * h3 = / 6 /\
  h2 * h2 * h2 = / 2 * h2 /\ h2 * h2 * h2 * h3 = / 2 * h2 * h3 /\ h2 * h2 * h2 * h3 * h3 = / 6 * h2 /\ h2 * h2 * h2 * h3 * h3 * h3 = / 6 * h2 * h3 /\ h3 * h3 * h3 = / 3 * h3)%R.
Proof.
  pose proof h2_sq as E2. pose proof h3_sq as E3. repeat split; auto.
  - rewrite E2. auto. - rewrite Rmult_assoc, E3. lra. - rewrite E2, Rmult_assoc, E3. lra. - rewrite E2. auto. - rewrite E2. auto. - rewrite E2. rewrite Rmult_assoc, E3. lra.
  - rewrite E2, Rmult_assoc, E3. replace (/ 2 * h2 * h3 * (/ 3))%R with (/ 6 * h2 * h3)%R by lra. lra. - rewrite E3. auto.
Qed.
Ltac hsolve := pose proof h_facts as (?H & ?H & ?H & ?H & ?H & ?H & ?H & ?H & ?H & ?H); lra.
Opaque h2 h3.

Definition rv (l : list R) : vec := map RtoC l.
Lemma vnorm_rv l r : (0 <= r)%R -> (fold_right Rplus 0 (map (fun x => x * x) l) = r * r)%R -> vnorm (rv l) = r.
Proof.
  intros Hr E. unfold vnorm, rv. rewrite map_map. replace (fold_right Rplus 0 (map _ l))%R with (r * r)%R; [apply sqrt_square; auto|].
  rewrite <- E. f_equal. apply map_ext. intros x. cbn. lra.
Qed.
Lemma vscale_rv a l : vscale (RtoC a) (rv l) = rv (map (Rmult a) l).
Proof. unfold vscale, rv. rewrite !map_map. apply map_ext. intros x. rewrite RtoC_mult. reflexivity. Qed.
Lemma unit_rv l r s : (0 < r)%R -> (fold_right Rplus 0 (map (fun x => x * x) l) = r * r)%R -> (r * s = 1)%R -> unit_vec (rv l) = Some (rv (map (Rmult s) l)).
Proof.
  intros Hr E Es. unfold unit_vec. rewrite (vnorm_rv l r) by (auto; lra). destruct (Req_EM_T r 0) as [Z|_]; [lra|].
  replace (/ r)%R with s; [rewrite vscale_rv; reflexivity|]. apply (Rmult_eq_reg_l r); [|lra]. rewrite Es, Rinv_r; lra.
Qed.
Lemma rv_eq l l' : Forall2 (@eq R) l l' -> rv l = rv l'.
Proof. induction 1 as [|x y l l' -> _ IH]; cbn; [auto | f_equal; exact IH]. Qed.
Ltac rvec := apply rv_eq; repeat constructor; cbn; hsolve.

Definition c89_a (l : Z) : OS := mkOS [OA] [l] Majorana p_one.
Definition c89_basis : Basis := mkBasis [c89_a 0; c89_a 1; c89_a 2] [(c89_a 0, 0); (c89_a 1, 1); (c89_a 2, 2)].
Definition c89_op : Operator := mkOperator [g1; g1; g1] c89_basis Majorana.
Definition c89_swap : rule := label_permutation [2; 1; 0]%Z.
Definition c89_y0 : entry_sym := mkSym (SymOperator c89_op) GAnticommutator None.
Definition c89_y1 : entry_sym := mkSym (SymTransformation c89_swap) GCommutator None.

(** The vectors found for the first symmetry, their decomposition, the vectors of the first
    sparsification, their decomposition and the vectors of the second. *)
Definition c89_V : list vec := [rv [h2; - h2; 0]; rv [h2 * h3; h2 * h3; - 2 * h2 * h3]]%R.
Definition c89_L : list vec := [rv [1; -1; 0]; rv [0; 1; -1]]%R.
Definition c89_Q : list vec := [rv [0; h2; - h2]; rv [2 * h2 * h3; - h2 * h3; - h2 * h3]]%R.
Definition c89_M : list vec := [rv [0; 1; -1]; rv [1; 0; -1]]%R.
Definition c89_W : list vec := [rv [h2; 0; - h2]; rv [0; h2; - h2]]%R.
(** Eigenvalues and eigenvectors for the second symmetry. *)
Definition c89_e : R := (sqrt 5 / 2)%R.
Definition c89_r : R := (/ sqrt (5 / 2 + 2 * c89_e))%R.
Lemma c89_ee : (c89_e * c89_e = 5 / 4)%R.
Proof. unfold c89_e. pose proof (sqrt_sqrt 5 ltac:(lra)). nra. Qed.
Lemma c89_ebounds : (11 / 10 < c89_e < 12 / 10)%R.
Proof. assert (0 < c89_e)%R by (unfold c89_e; pose proof (sqrt_lt_R0 5 ltac:(lra)); lra). pose proof c89_ee. split; nra. Qed.
Lemma c89_rr : (c89_r * c89_r * (5 / 2 + 2 * c89_e) = 1)%R.
Proof. pose proof c89_ebounds. unfold c89_r. rewrite <- Rinv_mult, sqrt_sqrt by lra. apply Rinv_l. lra. Qed.
Definition c89_pairs0 : list (R * vec) := [(12, rv [h3; h3; h3]); (0, rv [h2; - h2; 0]); (0, rv [h2 * h3; h2 * h3; - 2 * h2 * h3])]%R.
Definition c89_pairs1 : list (R * vec) := [(c89_e, rv [c89_r * (- / 2); c89_r * (1 + c89_e)]); (- c89_e, rv [c89_r * (1 + c89_e); c89_r * / 2])]%R.
Definition c89_eig (nv : option nat) (D : list vec) : list (R * vec) := if Nat.eqb (length D) 3 then c89_pairs0 else c89_pairs1.

Lemma C_dec (x y : C) : {x = y} + {x <> y}.
Proof. destruct x as [a b], y as [c d]. destruct (Req_EM_T a c), (Req_EM_T b d); [left; congruence | right; congruence | right; congruence | right; congruence]. Defined.
Definition vecs_dec : forall V W : list vec, {V = W} + {V <> W} := list_eq_dec (list_eq_dec C_dec).
Definition c89_lu (V : list vec) : list vec :=
  if vecs_dec V c89_V then c89_L else if vecs_dec V c89_Q then c89_M else some_lu (length (hd [] V)) V.
(** Coefficients of the Operators over A_0, A_2, A_1, and the pseudo-inverse. *)
Definition c89_K : list vec := [rv [h2; - h2; 0]; rv [0; - h2; h2]]%R.
Definition c89_P : list vec := [rv [4 / 3 * h2; - 2 / 3 * h2; - 2 / 3 * h2]; rv [- 2 / 3 * h2; - 2 / 3 * h2; 4 / 3 * h2]]%R.
Definition c89_pinv (K : list vec) : list vec := if vecs_dec K c89_K then c89_P else map (map Cconj) K.
Definition c89_oracles : oracles := mkOracles c89_eig c89_pinv c89_lu sort_index.

Lemma c89_string l : string_ok Majorana (c89_a l) /\ canonical (c89_a l).
Proof.
  split; [|split; [repeat constructor | left; reflexivity]]. split; [reflexivity|]. split; [reflexivity|]. split; [intros o [<-|[]]; reflexivity|].
  split; [constructor; [intros [] | constructor] | apply GC_ext; apply Qc_is_canon; reflexivity].
Qed.
Lemma c89_good : good_basis Majorana c89_basis.
Proof. split; [apply (built_new [c89_a 0; c89_a 1; c89_a 2]); reflexivity|]. intros s [<-|[<-|[<-|[]]]]; apply c89_string. Qed.
Lemma c89_good_op : good_op Majorana c89_op.
Proof. apply (good_op_intro Majorana [g1; g1; g1] [c89_a 0; c89_a 1; c89_a 2]); try reflexivity. intros s [<-|[<-|[<-|[]]]]; apply c89_string. Qed.
Lemma c89_permutes : permutes [2; 1; 0]%Z (fun l => 2 - l)%Z.
Proof.
  split; [repeat constructor; simpl; intuition discriminate|]. split; [intros l [<-|[<-|[<-|[]]]]; cbn; lia|].
  intros l H. cbn in H. assert (l = 0 \/ l = 1 \/ l = 2)%Z as [-> | [-> | ->]] by lia; reflexivity.
Qed.
Lemma c89_pinv_ok n K : (forall k, In k K -> length k = n) -> orthonormal K -> least_squares n K (c89_pinv K).
Proof.
  intros VK OK. unfold c89_pinv. destruct (vecs_dec K c89_K) as [->|_]; [exfalso | apply conj_pinv; auto].
  destruct OK as [_ O2]. specialize (O2 0 1 _ _ eq_refl eq_refl ltac:(discriminate)). unfold inner, rv in O2. cbn in O2. apply (f_equal fst) in O2. cbn in O2.
  pose proof h2_sq. lra.
Qed.
Lemma c89_pinv_K : c89_pinv c89_K = c89_P /\ least_squares 3 c89_K c89_P.
Proof.
  split; [unfold c89_pinv; destruct (vecs_dec c89_K c89_K); tauto|]. intros [|a [|b [|c [|d x]]]] L; try discriminate. split; [reflexivity|].
  destruct a as [a1 a2], b as [b1 b2], c as [c1 c2]. pose proof h_facts as (E1 & _ & _ & _ & _ & E2 & _).
  assert (X : forall z, (h2 * h2 * h2 * z = / 2 * h2 * z)%R) by (intros z; rewrite E2; auto).
  intros k [<-|[<-|[]]]; unfold inner, rv; cbn; apply injective_projections; cbn;
    pose proof (X a1); pose proof (X a2); pose proof (X b1); pose proof (X b2); pose proof (X c1); pose proof (X c2); lra.
Qed.
Lemma c89_good_sym y : In y [c89_y0; c89_y1] -> good_sym Majorana c89_oracles (CBasis c89_basis) y /\ y_num y = None.
Proof.
  intros [<-|[<-|[]]]; (split; [|reflexivity]).
  - cbn. split; [discriminate|]. split; [apply c89_good_op | discriminate].
  - cbn. split; [|exists 1%R; reflexivity].
    assert (Hs : forall s, In s (b_strings c89_basis) -> string_ok Majorana s /\ canonical s /\ in_range (length [2; 1; 0]%Z) s).
    { intros s [<-|[<-|[<-|[]]]]; (split; [apply c89_string|]); (split; [apply c89_string|]); intros l [<-|[]]; cbn; lia. }
    destruct (proj1 (proj2 (proj2 (C83_transformations (b_strings c89_basis)))) Majorana [2; 1; 0]%Z _ ltac:(discriminate) c89_permutes Hs) as [H1 H2].
    split; [apply c89_good|]. split; [apply Hs|]. split; [exact I|]. split; [exact H1|]. split; [exact H2|]. exact c89_pinv_ok.
Qed.

(** The first search. *)
Lemma c89_columns0 : liouvillian_columns GAnticommutator (CBasis c89_basis) c89_op = Ok [[RtoC 2]; [RtoC 2]; [RtoC 2]].
Proof.
  unfold liouvillian_columns. match goal with |- context [liouvillian_mode ?g ?b ?o] => let r := eval vm_compute in (liouvillian_mode g b o) in
    replace (liouvillian_mode g b o) with r by (vm_compute; reflexivity) end.
  cbn [rbind]. unfold dense_cols. cbn -[Q2R RtoC]. unfold to_C. cbn -[RtoC]. unfold Q2R, RtoC. cbn.
  repeat f_equal; lra.
Qed.
Definition c89_D0 : list vec := [rv [4; 4; 4]; rv [4; 4; 4]; rv [4; 4; 4]]%R.
Lemma c89_gram0 : gram [[RtoC 2]; [RtoC 2]; [RtoC 2]] = c89_D0.
Proof. unfold gram, c89_D0, rv, vdot. cbn [map zip_with csum fold_right]. cvec. Qed.
Lemma c89_search0 : search c89_oracles (CBasis c89_basis) c89_y0 tol10r = Ok (mkFound c89_V c89_D0 (map fst c89_pairs0) (map snd c89_pairs0) false).
Proof.
  unfold search, c89_y0. cbn [y_sym y_mode y_num or_eig or_pinv c89_oracles]. unfold commuting_operators. rewrite c89_columns0. cbn [rbind]. rewrite c89_gram0.
  unfold c89_eig. cbn [length c89_D0 Nat.eqb]. unfold keep, c89_pairs0. cbn [filter fst snd]. rewrite c82_small, (c82_large 12) by lra. reflexivity.
Qed.
Lemma c89_span0 x : length x = 3 -> span 3 (map snd c89_pairs0) x.
Proof.
  destruct x as [|a [|b [|c [|d x]]]]; try discriminate. intros _.
  replace [a; b; c] with (vadd (vscale (RtoC h3 * (a + b + c))%C (rv [h3; h3; h3])) (vadd (vscale (RtoC h2 * (a - b))%C (rv [h2; - h2; 0]%R))
    (vadd (vscale (RtoC (h2 * h3) * (a + b - RtoC 2 * c))%C (rv [h2 * h3; h2 * h3; - 2 * h2 * h3]%R)) (repeat (RtoC 0) 3)))).
  - apply span_add; [simpl; auto|]. apply span_add; [simpl; auto|]. apply span_add; [simpl; auto|]. apply span_zero.
  - destruct a as [a1 a2], b as [b1 b2], c as [c1 c2]. cbn.
    assert (X : forall z, (h3 * h3 * z = / 3 * z /\ h2 * h2 * z = / 2 * z /\ h2 * h2 * h3 * h3 * z = / 6 * z)%R) by (intros z; repeat split; f_equal; apply h_facts).
    repeat (match goal with |- _ :: _ = _ :: _ => f_equal end); auto; apply injective_projections; cbn;
      pose proof (X a1) as (?&?&?); pose proof (X b1) as (?&?&?); pose proof (X c1) as (?&?&?); pose proof (X a2) as (?&?&?); pose proof (X b2) as (?&?&?); pose proof (X c2) as (?&?&?); lra.
Qed.
Lemma c89_exact0 : exact_pairs tol10r c89_D0 (combine (map fst c89_pairs0) (map snd c89_pairs0)).
Proof.
  change (combine (map fst c89_pairs0) (map snd c89_pairs0)) with c89_pairs0. split; [split|split].
  - intros l v Hin. destruct Hin as [E|[E|[E|[]]]]; injection E as <- <-; (split; [reflexivity|]); (split; [intros E; apply (f_equal (fun l => fst (hd (RtoC 0) l))) in E; cbn in E; pose proof h2_bounds; pose proof h3_bounds; pose proof h23_bounds; lra|]);
      unfold c89_D0, rows_vec, csum, rv; cbn; cvec.
  - apply c89_span0.
  - split.
    + intros v [<-|[<-|[<-|[]]]]; unfold inner, rv; cbn; apply injective_projections; cbn; hsolve.
    + intros [|[|[|i]]] [|[|[|j]]] v w E1 E2 Nij; cbn [nth_error map c89_pairs0 snd] in E1, E2; try (destruct i; discriminate); try (destruct j; discriminate); try (exfalso; apply Nij; reflexivity);
        injection E1 as <-; injection E2 as <-; unfold inner, rv; cbn; apply injective_projections; cbn; hsolve.
  - intros e [<-|[<-|[<-|[]]]]; cbn [fst]; auto. right. rewrite Rabs_right by lra. unfold tol10r. simpl. lra.
Qed.

(** The sparsification. *)
Lemma c89_large x : (/ 10 < Rabs x)%R -> lt_dec tol12r (Cmod (RtoC x)) = true.
Proof. intros H. apply lt_dec_true. rewrite Cmod_R. unfold tol12r. simpl. lra. Qed.
Lemma c89_none : lt_dec tol12r (Cmod (RtoC 0)) = false.
Proof. apply not_true_iff_false. rewrite lt_dec_true, Cmod_0. unfold tol12r. simpl. lra. Qed.
Lemma c89_abs x : (/ 10 < x \/ x < - / 10)%R -> (/ 10 < Rabs x)%R.
Proof. intros H. unfold Rabs. destruct (Rcase_abs x); lra. Qed.
Ltac habs := apply c89_large, c89_abs; pose proof h2_bounds; pose proof h23_bounds; lra.
Lemma c89_step1 : sparsify c89_lu sort_index 3 true tol12r c89_V = Ok (Some c89_Q).
Proof.
  unfold sparsify. cbn [length c89_V Nat.leb]. fold c89_V. unfold c89_lu. destruct (vecs_dec c89_V c89_V) as [_|N]; [|tauto]. cbn [rev c89_L app].
  assert (EG : gram_schmidt 3 0 [rv [0; 1; -1]; rv [1; -1; 0]]%R = Some c89_Q).
  { unfold gram_schmidt. cbn [Nat.eqb]. pose proof h2_bounds as B2. pose proof h23_bounds as B23.
    rewrite (vnorm_rv [0; 1; -1]%R (2 * h2)) by (try (cbn; hsolve); lra). destruct (Req_EM_T (2 * h2) 0) as [Z|_]; [lra|].
    replace (/ (2 * h2))%R with h2 by (apply (Rmult_eq_reg_l (2 * h2)); [rewrite Rinv_r by lra; hsolve | lra]). rewrite vscale_rv.
    cbn [gs_loop gs_project fold_left].
    replace (vsub _ _) with (rv [1; - / 2; - / 2]%R).
    - rewrite (vnorm_rv [1; - / 2; - / 2]%R (3 * (h2 * h3))) by (try (cbn; hsolve); lra). destruct (Rlt_dec 0 (3 * (h2 * h3))) as [_|N]; [|lra].
      replace (/ (3 * (h2 * h3)))%R with (2 * h2 * h3)%R by (apply (Rmult_eq_reg_l (3 * (h2 * h3))); [rewrite Rinv_r by lra; hsolve | lra]). rewrite vscale_rv.
      unfold c89_Q. cbn [app]. do 2 f_equal; [|f_equal]; rvec.
    - unfold vsub, vscale, vdot, rv. cbn. unfold csum. cbn. repeat (match goal with |- _ :: _ = _ :: _ => f_equal end); auto; apply injective_projections; cbn; hsolve. }
  rewrite EG. cbn [rmap seq nth_error c89_Q of_option rbind map].
  rewrite (unit_rv [0; h2; - h2]%R 1 1), (unit_rv [2 * h2 * h3; - h2 * h3; - h2 * h3]%R 1 1) by (try (cbn; hsolve); lra). cbn [all_some map].
  unfold sparsity. cbn [rv map filter]. rewrite !Rmult_1_l. rewrite c89_none. rewrite !c89_large by (apply c89_abs; pose proof h2_bounds; pose proof h23_bounds; lra).
  cbn. reflexivity.
Qed.
Lemma c89_step2 : sparsify c89_lu sort_index 3 false tol12r c89_Q = Ok (Some c89_W).
Proof.
  unfold sparsify. cbn [length c89_Q Nat.leb]. fold c89_Q. unfold c89_lu. destruct (vecs_dec c89_Q c89_V) as [E|_].
  { apply (f_equal (fun l => fst (hd (RtoC 0) (hd [] l)))) in E. cbn in E. pose proof h2_bounds. lra. }
  destruct (vecs_dec c89_Q c89_Q) as [_|N]; [|tauto]. cbn [rev c89_M app].
  cbn [rmap seq nth_error of_option rbind map]. pose proof h2_bounds as B2.
  rewrite (unit_rv [1; 0; -1]%R (2 * h2) h2), (unit_rv [0; 1; -1]%R (2 * h2) h2) by (try (cbn; hsolve); lra). cbn [all_some map].
  replace (rv [h2 * 1; h2 * 0; h2 * -1]%R) with (rv [h2; 0; - h2]%R) by rvec. replace (rv [h2 * 0; h2 * 1; h2 * -1]%R) with (rv [0; h2; - h2]%R) by rvec.
  unfold sparsity. cbn [rv map filter]. rewrite c89_none. rewrite !c89_large by (apply c89_abs; pose proof h2_bounds; lra).
  cbn. reflexivity.
Qed.
Lemma c89_sparsify : c_sparsify c89_oracles 3 true false c89_V = Ok (Some c89_W).
Proof. unfold c_sparsify. cbn [or_lu or_argsort c89_oracles]. rewrite c89_step1. cbn [rbind]. apply c89_step2. Qed.

(** The decompositions are correct. *)
Lemma span2 n (V : list vec) a b u v w : In u V -> In v V -> w = vadd (vscale a u) (vadd (vscale b v) (vzero n)) -> span n V w.
Proof. intros Hu Hv ->. apply span_add; auto. apply span_add; auto. apply span_zero. Qed.
Lemma c89_lu_ok n V : vectors n V -> orthonormal V -> lu_columns n V (c89_lu V).
Proof.
  intros HV _. unfold c89_lu. destruct (vecs_dec V c89_V) as [->|_]; [|destruct (vecs_dec V c89_Q) as [->|_]].
  - assert (n = 3) as -> by (symmetry; apply (HV _ ltac:(left; reflexivity))). split; [reflexivity|]. split; [intros v [<-|[<-|[]]]; reflexivity|]. split.
    + intros [|[|j]] c E; cbn in E; try (destruct j; discriminate); injection E as <-.
      * exists 0. split; [reflexivity|]. intros [|[|i]] d Hi E; cbn in E; try lia; [injection E as <-; reflexivity | destruct i; discriminate].
      * exists 1. split; [reflexivity|]. intros [|[|i]] d Hi E; cbn in E; try lia. destruct i; discriminate.
    + intros [|[|j]] v E; cbn [nth_error c89_V] in E; try (destruct j; discriminate); injection E as <-; cbn [firstn c89_L].
      * apply (span2 3 _ (RtoC h2) (RtoC 0) (rv [1; -1; 0]%R) (rv [1; -1; 0]%R)); try (left; reflexivity). unfold rv. cbn. cvec.
      * apply (span2 3 _ (RtoC (h2 * h3)) (RtoC (2 * (h2 * h3))) (rv [1; -1; 0]%R) (rv [0; 1; -1]%R)); try (simpl; auto; fail). unfold rv. cbn. cvec.
  - assert (n = 3) as -> by (symmetry; apply (HV _ ltac:(left; reflexivity))). split; [reflexivity|]. split; [intros v [<-|[<-|[]]]; reflexivity|]. split.
    + intros [|[|j]] c E; cbn in E; try (destruct j; discriminate); injection E as <-.
      * exists 1. split; [reflexivity|]. intros [|[|i]] d Hi E; cbn in E; try lia; [injection E as <-; reflexivity | destruct i; discriminate].
      * exists 0. split; [reflexivity|]. intros [|[|i]] d Hi E; cbn in E; try lia. destruct i; discriminate.
    + intros [|[|j]] v E; cbn [nth_error c89_Q] in E; try (destruct j; discriminate); injection E as <-; cbn [firstn c89_M].
      * apply (span2 3 _ (RtoC h2) (RtoC 0) (rv [0; 1; -1]%R) (rv [0; 1; -1]%R)); try (left; reflexivity). unfold rv. cbn. cvec.
      * apply (span2 3 _ (RtoC (2 * (h2 * h3))) (RtoC (- (h2 * h3))) (rv [1; 0; -1]%R) (rv [0; 1; -1]%R)); try (simpl; auto; fail). unfold rv. cbn. cvec.
  - destruct V as [|v V].
    + destruct (some_lu_ok 0 [] ltac:(intros v [])) as [E _]. cbn [length Nat.min] in E. apply length_zero_iff_nil in E. cbn [hd length]. rewrite E.
      split; [rewrite Nat.min_0_r; reflexivity|]. split; [intros v []|]. split; intros [|j] c E0; discriminate.
    + cbn [hd]. rewrite (HV v (or_introl eq_refl)). apply some_lu_ok; auto.
Qed.

(** The conversion to Operators. *)
Definition c89_O1 : COp := mkCOp [RtoC h2; RtoC (- h2)] (mkBasis [c89_a 0; c89_a 2] [(c89_a 0, 0); (c89_a 2, 1)]) Majorana.
Definition c89_O2 : COp := mkCOp [RtoC h2; RtoC (- h2)] (mkBasis [c89_a 1; c89_a 2] [(c89_a 1, 0); (c89_a 2, 1)]) Majorana.
Lemma c89_large10 x : (/ 10 < Rabs x)%R -> large tol10r (RtoC x) = true.
Proof. intros H. apply lt_dec_true. rewrite Cmod_R. unfold tol10r. simpl. lra. Qed.
Definition c89_st0 : cstate := mkC [c89_D0] [[c89_O1; c89_O2]] [c89_W].
Lemma c89_run0 : generate_cumulative c89_oracles (CBasis c89_basis) [c89_y0] true false tol10r c_fresh = Ok (Some c89_st0).
Proof.
  unfold generate_cumulative. cbn [length seq combine]. unfold ofold. cbn [rfold]. unfold c_step. cbn [Nat.eqb rbind]. change (cbasis_len (CBasis c89_basis)) with 3. cbn [Nat.eqb].
  rewrite c89_search0. cbn [rbind f_ops f_super]. rewrite c89_sparsify. cbn [rbind]. unfold c89_W. cbn [to_operators]. unfold to_operator. cbn [b_strings c89_basis rv map combine filter fst].
  rewrite c88_large0. rewrite !c89_large10 by (apply c89_abs; pose proof h2_bounds; lra). reflexivity.
Qed.

(** The second search finds nothing. *)
Lemma c89_coeffs : rmap (coeff_column (ccombined [c89_O1; c89_O2])) [c89_O1; c89_O2] = Ok c89_K.
Proof.
  match goal with |- context [ccombined ?l] => set (b := ccombined l) end.
  assert (Eb : b = mkBasis [c89_a 0; c89_a 2; c89_a 1] [(c89_a 0, 0); (c89_a 2, 1); (c89_a 1, 2)]) by reflexivity. rewrite Eb. clear b Eb.
  cbn [rmap]. unfold coeff_column. cbn [c_terms c_coeffs c_basis c89_O1 c89_O2 combine b_strings rmap snd fst].
  match goal with |- context [basis_index ?b (c89_a 0)] => replace (basis_index b (c89_a 0)) with (@Ok nat 0) by reflexivity;
    replace (basis_index b (c89_a 1)) with (@Ok nat 2) by reflexivity; replace (basis_index b (c89_a 2)) with (@Ok nat 1) by reflexivity end.
  cbn [rbind]. unfold c89_K, rv. cbn [basis_len b_strings length seq map Nat.eqb fst snd csum fold_right]. f_equal. cvec.
Qed.
Lemma c89_columns1 : symmetry_columns c89_pinv (COps [c89_O1; c89_O2]) c89_swap = Ok [rv [-1; 0]; rv [-1; 1]]%R.
Proof.
  unfold symmetry_columns. rewrite c89_coeffs. cbn [rbind].
  match goal with |- context [symmetry_matrix ?b ?T] => replace (symmetry_matrix b T) with (symmetry_matrix (mkBasis [c89_a 0; c89_a 2; c89_a 1] [(c89_a 0, 0); (c89_a 2, 1); (c89_a 1, 2)]) T) by reflexivity end.
  match goal with |- context [symmetry_matrix ?b ?T] => let r := eval vm_compute in (symmetry_matrix b T) in
    replace (symmetry_matrix b T) with r by (vm_compute; reflexivity) end.
  cbn [rbind]. f_equal. rewrite (proj1 c89_pinv_K).
  match goal with |- context [rows_vec (dense_rows ?M)] => set (D := dense_rows M) end.
  assert (ED : D = [[RtoC 0; RtoC 1; RtoC 0]; [RtoC 1; RtoC 0; RtoC 0]; [RtoC 0; RtoC 0; RtoC 1]]).
  { unfold D, dense_rows. cbn -[Q2R RtoC]. unfold to_C. cbn -[RtoC]. unfold Q2R, RtoC. cbn. repeat f_equal; lra. }
  rewrite ED. unfold c89_K, c89_P, rows_vec, rv, csum. cbn. 
  repeat (match goal with |- _ :: _ = _ :: _ => f_equal end); auto; apply injective_projections; cbn; hsolve.
Qed.
Definition c89_D1 : list vec := [rv [2; / 2]; rv [/ 2; 0]]%R.
Lemma c89_search1 : search c89_oracles (COps [c89_O1; c89_O2]) c89_y1 tol10r = Ok (mkFound [] c89_D1 [1 - 1 * c89_e; 1 - 1 * - c89_e]%R (map snd c89_pairs1) false).
Proof.
  unfold search, c89_y1. cbn [y_sym y_mode y_num or_eig or_pinv c89_oracles]. unfold invariant_operators. rewrite c89_columns1. cbn [rbind gsign]. change (cbasis_len (COps [c89_O1; c89_O2])) with 2.
  assert (EH : hermitian_rows 2 [rv [-1; 0]; rv [-1; 1]]%R = [rv [-1; - / 2]; rv [- / 2; 1]]%R) by (unfold hermitian_rows, entry, rv; cbn [seq map nth]; cvec).
  rewrite EH. unfold c89_eig. cbn [length Nat.eqb]. unfold keep, c89_pairs1. cbn [filter fst snd map].
  pose proof c89_ebounds as Be. assert (T : (tol10r < / 10)%R) by (unfold tol10r; simpl; lra).
  replace (lt_dec (Rabs (c89_e - 1)) tol10r) with false. replace (lt_dec (Rabs (- c89_e - 1)) tol10r) with false.
  - cbn [map]. assert (E1 : one_minus 2 1 [rv [-1; - / 2]; rv [- / 2; 1]]%R = c89_D1) by (unfold one_minus, c89_D1, rv; cbn [seq map nth Nat.eqb]; cvec). f_equal. f_equal. exact E1.
  - symmetry. apply not_true_iff_false. rewrite lt_dec_true, Rabs_left by lra. lra.
  - symmetry. apply not_true_iff_false. rewrite lt_dec_true, Rabs_right by lra. lra.
Qed.
Lemma c89_exact1 : exact_pairs tol10r c89_D1 (combine [1 - 1 * c89_e; 1 - 1 * - c89_e]%R (map snd c89_pairs1)).
Proof.
  pose proof c89_ebounds as Be. pose proof c89_ee as Ee. pose proof c89_rr as Er. assert (Nr : (c89_r <> 0)%R) by (intros Z; rewrite Z in Er; lra).
  assert (X : forall z, (c89_e * c89_e * z = 5 / 4 * z /\ c89_r * c89_r * (5 / 2 + 2 * c89_e) * z = z)%R) by (intros z; rewrite Ee, Er; lra).
  cbn [c89_pairs1 map snd combine]. split; [split|split].
  - intros l v [E|[E|[]]]; injection E as <- <-; (split; [reflexivity|]).
    + split; [intros E; apply (f_equal (fun l => fst (hd (RtoC 0) l))) in E; cbn in E; apply Rmult_integral in E; lra|].
      unfold c89_D1, rows_vec, csum, rv. cbn. pose proof (X c89_r) as [? _]. cvec.
    + split; [intros E; apply (f_equal (fun l => fst (hd (RtoC 0) l))) in E; cbn in E; apply Rmult_integral in E; lra|].
      unfold c89_D1, rows_vec, csum, rv. cbn. pose proof (X c89_r) as [? _]. cvec.
  - cbn [length c89_D1 map snd]. intros [|a [|b [|c x]]] L; try discriminate.
    apply (span2 2 _ (RtoC (c89_r * (- / 2)) * a + RtoC (c89_r * (1 + c89_e)) * b)%C (RtoC (c89_r * (1 + c89_e)) * a + RtoC (c89_r * / 2) * b)%C
      (rv [c89_r * (- / 2); c89_r * (1 + c89_e)]%R) (rv [c89_r * (1 + c89_e); c89_r * / 2]%R)); try (simpl; auto; fail).
    destruct a as [a1 a2], b as [b1 b2]. unfold rv. cbn.
    assert (Y : forall z, (c89_r * c89_r * c89_e * c89_e * z = 5 / 4 * (c89_r * c89_r * z))%R) by (intros z; replace (c89_r * c89_r * c89_e * c89_e * z)%R with (c89_e * c89_e * (c89_r * c89_r * z))%R by lra; rewrite Ee; auto).
    repeat (match goal with |- _ :: _ = _ :: _ => f_equal end); auto; apply injective_projections; cbn;
      pose proof (X a1) as [_ ?]; pose proof (X a2) as [_ ?]; pose proof (X b1) as [_ ?]; pose proof (X b2) as [_ ?]; pose proof (Y a1); pose proof (Y a2); pose proof (Y b1); pose proof (Y b2); lra.
  - assert (Y : (c89_r * c89_r * c89_e * c89_e = 5 / 4 * (c89_r * c89_r))%R) by (rewrite (Rmult_assoc (c89_r * c89_r)), Ee; lra). split.
    + intros v [<-|[<-|[]]]; unfold inner, rv; cbn; apply injective_projections; cbn; lra.
    + intros [|[|i]] [|[|j]] v w E1 E2 Nij; cbn [nth_error map snd] in E1, E2; try (destruct i; discriminate); try (destruct j; discriminate); try (exfalso; apply Nij; reflexivity);
        injection E1 as <-; injection E2 as <-; unfold inner, rv; cbn; apply injective_projections; cbn; lra.
  - assert (T : (tol10r < / 10)%R) by (unfold tol10r; simpl; lra). intros e [<-|[<-|[]]]; right; cbn [fst].
    + rewrite Rabs_left; lra. + rewrite Rabs_right; lra.
Qed.
Lemma c89_run : generate_cumulative c89_oracles (CBasis c89_basis) [c89_y0; c89_y1] true false tol10r c_fresh =
  Ok (Some (mkC [c89_D0; c89_D1] [[c89_O1; c89_O2]; []] [c89_W; []])).
Proof.
  change [c89_y0; c89_y1] with ([c89_y0] ++ [c89_y1]). rewrite gen_snoc, c89_run0. unfold c_step. cbn [length Nat.eqb rev cu_pout c89_st0 app rbind cbasis_len].
  rewrite c89_search1. cbn [rbind f_ops f_super]. reflexivity.
Qed.
Lemma c89_exact : exact_crun c89_oracles (CBasis c89_basis) [c89_y0; c89_y1] true false tol10r.
Proof.
  intros [|z [|z' [|z'' s]]] y rest st Es Eg; [| |exfalso|exfalso].
  - unfold generate_cumulative in Eg. cbn in Eg. injection Eg as <-. cbn [app] in Es. injection Es as <- _. change (current (CBasis c89_basis) c_fresh) with (CBasis c89_basis).
    intros f Ef. rewrite c89_search0 in Ef. injection Ef as <-. cbn [f_super f_evals f_evecs f_ops]. split; [apply c89_exact0|].
    change (cbasis_len (CBasis c89_basis)) with 3. rewrite c89_sparsify. intros vs E. injection E as <-.
    assert (T : (tol10r < / 10)%R) by (unfold tol10r; simpl; lra). pose proof h2_bounds.
    intros v z [<-|[<-|[]]] Hz; destruct Hz as [<-|[<-|[<-|[]]]]; auto; right; rewrite Cmod_R; (eapply Rlt_trans; [exact T|]); apply c89_abs; lra.
  - cbn [app] in Es. injection Es as <- <- _. rewrite c89_run0 in Eg. injection Eg as <-. change (current (CBasis c89_basis) c89_st0) with (COps [c89_O1; c89_O2]).
    intros f Ef. rewrite c89_search1 in Ef. injection Ef as <-. cbn [f_super f_evals f_evecs f_ops]. split; [apply c89_exact1|].
    intros vs E. cbn in E. injection E as <-. intros v z [].
  - apply (f_equal (@length _)) in Es. rewrite app_length in Es. cbn in Es. lia.
  - apply (f_equal (@length _)) in Es. rewrite app_length in Es. cbn in Es. lia.
Qed.
(** A_0 - 2 A_1 + A_2 has both symmetries. *)
Definition c89_v : vec := rv [1; -2; 1]%R.
Lemma c89_satisfies (A : StarAlg) (S : RScal A) (g : op -> Z -> A) y : rep Majorana g -> ~ (@aone A == azero) -> In y [c89_y0; c89_y1] -> satisfies S g (CBasis c89_basis) y c89_v.
Proof.
  intros Hr Hn [<-|[<-|[]]].
  - destruct (search_ok Majorana c89_oracles (CBasis c89_basis) tol10r c89_good tol10_pos c89_y0) as (f & Ef & _ & _ & Hm); [apply c89_good_sym; left; auto | reflexivity|].
    assert (Ef' : commuting_operators c89_eig (CBasis c89_basis) c89_op GAnticommutator None tol10r = Ok f) by exact Ef.
    rewrite c89_search0 in Ef. injection Ef as <-.
    destruct (C78_complete Majorana GAnticommutator _ (CBasis c89_basis) c89_op c89_eig None tol10r _ ltac:(discriminate) c89_good c89_good_op eq_refl tol10_pos Ef'
      ltac:(apply c89_exact0) eq_refl A S g Hr Hn c89_v eq_refl) as [_ G].
    unfold satisfies. cbn [y_sym y_mode c89_y0 op_mode]. apply G; [apply c89_exact0|]. cbn [f_ops].
    apply (span2 3 _ (RtoC (3 * h2)) (RtoC (- 3 * (h2 * h3))) (rv [h2; - h2; 0]%R) (rv [h2 * h3; h2 * h3; - 2 * h2 * h3]%R)); [left; auto | right; left; auto|].
    unfold c89_v, rv. cbn. repeat (match goal with |- _ :: _ = _ :: _ => f_equal end); auto; apply injective_projections; cbn; hsolve.
  - unfold satisfies. cbn [y_sym y_mode c89_y1 trans_sign]. rewrite cs_1. unfold cimage, cden. cbn [combine c89_v rv map fst snd asum fold_right b_strings c89_basis]. unfold timage.
    match goal with |- context [c89_swap (c89_a 0)] => let r := eval vm_compute in (c89_swap (c89_a 0)) in replace (c89_swap (c89_a 0)) with r by (vm_compute; reflexivity) end.
    match goal with |- context [c89_swap (c89_a 1)] => let r := eval vm_compute in (c89_swap (c89_a 1)) in replace (c89_swap (c89_a 1)) with r by (vm_compute; reflexivity) end.
    match goal with |- context [c89_swap (c89_a 2)] => let r := eval vm_compute in (c89_swap (c89_a 2)) in replace (c89_swap (c89_a 2)) with r by (vm_compute; reflexivity) end.
    unfold lincomb, clincomb, op_terms. cbn [combine o_coeffs o_basis b_strings map fst snd asum fold_right]. rewrite !cs_1, !aadd_0_r.
    repeat (match goal with |- context [?z · den g _] => replace z with g1 by (apply GC_ext; apply Qc_is_canon; reflexivity); rewrite !ascal_1 end).
    assert (X : forall x y z : A, x + (y + z) == z + (y + x)) by (intros x y z; rewrite (aadd_comm _ y z), (aadd_comm _ x (z + y)), <- aadd_assoc; reflexivity).
    apply (X (den g (c89_a 2)) (cs S (RtoC (-2)) (den g (c89_a 1))) (den g (c89_a 0))).
Qed.

(** C89: the claim is that generate with its default options finds the operators that have all the
    symmetries.  It is false, although all the numerical routines are exact: the Operators found
    for the first symmetry are sparsified and are not orthogonal, and the search for a
    Transformation then misses operators (C84).  For A_0, A_1, A_2, anticommuting with
    A_0 + A_1 + A_2 and invariant under 0 <-> 2, nothing is found, but A_0 - 2 A_1 + A_2 is both.
    All the hypotheses of C88 hold but the one that excludes this. *)
Theorem C89_refuted : exists Or b syms, good_cbasis Majorana b /\ cbasis_len b <> 0 /\ independent_cbasis b /\
  (forall y, In y syms -> good_sym Majorana Or b y /\ y_num y = None) /\
  (forall n V, vectors n V -> orthonormal V -> lu_columns n V (or_lu Or V)) /\ (forall l, sorts l (or_argsort Or l)) /\
  exact_crun Or b syms true false tol10r /\
  (exists l, (forall o, In o l -> good_cop Majorana o) /\ nth_error (match generate_default Or b syms with Ok (Some (inl st)) => cu_pout st | _ => [] end) 0 = Some l /\
     exists n K, rmap (coeff_column (ccombined l)) l = Ok K /\ vectors n K /\ least_squares n K (or_pinv Or K)) /\
  (exists st, generate_default Or b syms = Ok (Some (inl st)) /\ length (cu_pout st) = length syms /\ last (cu_pout st) [c88_X] = []) /\
  exists v, length v = cbasis_len b /\ v <> repeat (RtoC 0) (cbasis_len b) /\
    forall (A : StarAlg) (S : RScal A) (g : op -> Z -> A), rep Majorana g -> ~ (@aone A == azero) -> forall y, In y syms -> satisfies S g b y v.
Proof.
  exists c89_oracles, (CBasis c89_basis), [c89_y0; c89_y1]. split; [apply c89_good|]. split; [discriminate|]. split; [exact I|]. split; [apply c89_good_sym|].
  split; [apply c89_lu_ok|]. split; [apply sort_index_ok|]. split; [apply c89_exact|].
  assert (Er : generate_default c89_oracles (CBasis c89_basis) [c89_y0; c89_y1] = Ok (Some (inl (mkC [c89_D0; c89_D1] [[c89_O1; c89_O2]; []] [c89_W; []])))).
  { unfold generate_default, generate. cbn [String.eqb Ascii.eqb Bool.eqb]. rewrite c89_run. reflexivity. }
  split; [|split].
  - rewrite Er. exists [c89_O1; c89_O2]. split; [|split; [reflexivity|]].
    + intros o [<-|[<-|[]]]; (split; [solve [apply (built_new [c89_a 0; c89_a 2]); reflexivity | apply (built_new [c89_a 1; c89_a 2]); reflexivity]|]); (split; [reflexivity|]); (split; [reflexivity|]); intros s [<-|[<-|[]]]; apply c89_string.
    + exists 3, c89_K. split; [|split; [intros v [<-|[<-|[]]]; reflexivity|]].
      * apply c89_coeffs.
      * cbn [or_pinv c89_oracles]. rewrite (proj1 c89_pinv_K). apply c89_pinv_K.
  - rewrite Er. eexists. split; [reflexivity|]. split; reflexivity.
  - exists c89_v. split; [reflexivity|]. split; [|intros; apply c89_satisfies; auto].
    intros E. apply (f_equal (fun l => fst (hd (RtoC 0) l))) in E. cbn in E. lra.
Qed.
Print Assumptions C89_refuted.
