(** Properties C83-C84: invariant_operators over the complex numbers, for Bases and lists of
    Operators. *)
From Coq Require Import String List ZArith Bool Arith Lia Reals QArith Qcanon Lra.
From Coquelicot Require Import Complex.
From Verif Require Import GC Exn M_OpString M_Tools M_Algebra M_Basis M_OpAlg M_Transform M_LinAlg M_Core
  S_Alg S_Den S_Basis S_Built S_OpAlg S_Transform S_RScal S_CFock S_CScal S_LinAlg S_Core S_Invariant
  L_PropStr L_Alg L_StrAlg L_Basis L_OpAlg L_PropOpAlg L_Trans1 L_Trans2 L_Trans3 L_Trans4 L_Trans5 L_Trans6 L_Trans7 L_Trans9 L_CScal L_CFock L_LinAlg L_Inter L_Herm L_Core L_Commuting L_PartIso L_Invariant L_Invariant2 L_Invariant3.
Import ListNotations.
Local Open Scope nat_scope.
Local Open Scope alg_scope.

(** C83: the kernel of the superoperator is the space of operators O with T(O) = sign O. *)
Theorem C83_kernel : forall ty eig pinv basis T gm sign nv tol, invariant_setting ty pinv basis T -> trans_sign gm = Some sign ->
  exists f, invariant_operators eig pinv basis T gm nv tol = Ok f /\ length (f_super f) = cbasis_len basis /\
    forall (A : StarAlg) (S : RScal A) (g : op -> Z -> A), rep ty g -> ~ (@aone A == azero) ->
    forall v, length v = cbasis_len basis ->
      (rows_vec (f_super f) v = repeat (RtoC 0) (cbasis_len basis) <-> cimage S g T basis v == cs S (RtoC sign) (cden S g basis v)).
Proof.
  intros ty eig pinv basis T gm sign nv tol (H1 & H2 & H3 & H4 & H5 & H6) Hg. apply gsign_trans in Hg.
  destruct (invariant_proof ty eig pinv basis T gm sign nv tol H1 H2 H3 H4 H5 H6 Hg) as (f & H & E & LH & VH & HH & Es & Eo & Ev & Ec & Ew & Ek & _).
  exists f. split; auto. rewrite Es, one_minus_length. split; auto. intros A S g Hr Hn v Lv. rewrite <- (Ek v Lv A S g Hr Hn).
  pose proof (gsign_sq _ _ Hg) as Hs. rewrite <- (one_minus_eigen (cbasis_len basis) sign H v sign Hs LH VH Lv).
  replace (1 - sign * sign)%R with 0%R by lra. rewrite vscale_0. rewrite Lv. reflexivity.
Qed.
Print Assumptions C83_kernel.

(** The returned vectors are not zero, and T(O) - sign O has coefficients whose squared norm is
    less than 2 tol times that of O; orthonormal eigenvectors give orthonormal results. *)
Theorem C83_sound : forall ty eig pinv basis T gm sign nv tol f, invariant_setting ty pinv basis T -> trans_sign gm = Some sign ->
  invariant_operators eig pinv basis T gm nv tol = Ok f -> eigenpairs (f_super f) (combine (f_evals f) (f_evecs f)) ->
  (forall v, In v (f_ops f) -> In v (f_evecs f) /\ length v = cbasis_len basis /\ v <> repeat (RtoC 0) (cbasis_len basis) /\
     exists ws, canonical_strings ty (map snd ws) /\ (norm2c (map fst ws) < 2 * tol * norm2c v)%R /\
       forall (A : StarAlg) (S : RScal A) (g : op -> Z -> A), cimage S g T basis v == cs S (RtoC sign) (cden S g basis v) + clincomb S g ws) /\
  (orthonormal (f_evecs f) -> orthonormal (f_ops f)).
Proof.
  intros ty eig pinv basis T gm sign nv tol f (H1 & H2 & H3 & H4 & H5 & H6) Hg Hf He. apply gsign_trans in Hg.
  destruct (invariant_proof ty eig pinv basis T gm sign nv tol H1 H2 H3 H4 H5 H6 Hg) as (f' & H & E & LH & VH & HH & Es & Eo & Ev & Ec & Ew & _ & Ed).
  rewrite Hf in E. injection E as <-. pose proof (gsign_sq _ _ Hg) as Hs. rewrite Es, Ev, Ec, combine_pairs in He.
  pose proof (invariant_pairs _ _ _ _ Hs LH VH He) as Hp. rewrite Eo, Ec. split; [|apply keep_orthonormal].
  intros v Hv. apply keep_in in Hv. destruct Hv as (l & Hin & Ht). apply lt_dec_true in Ht. destruct (Hp l v Hin) as (Lv & Nz & Ee).
  split; [apply in_map_iff; exists (l, v); auto|]. split; auto. split; auto.
  destruct (Ed v l Lv Ee) as (ws & W1 & W2 & W3). exists ws. split; auto. split; auto. rewrite W2.
  assert (P : (0 < norm2c v)%R). { rewrite <- sqsum_norm2c. apply sqsum_pos. rewrite Lv. exact Nz. }
  apply Rmult_lt_compat_r; auto. apply Rmult_lt_compat_l; [lra|].
  destruct gm; try discriminate Hg; injection Hg as <-; unfold Rabs in Ht; destruct (Rcase_abs _); lra.
Qed.
Print Assumptions C83_sound.

(** Nothing is missed: if the solver is exact and there is no warning, every O with T(O) = sign O
    is in the span of the returned operators; and if no eigenvalue of the superoperator lies
    strictly between 0 and [tol], the span is exactly the space of these operators. *)
Theorem C83_complete : forall ty eig pinv basis T gm sign nv tol f, invariant_setting ty pinv basis T -> trans_sign gm = Some sign -> (0 < tol)%R ->
  invariant_operators eig pinv basis T gm nv tol = Ok f ->
  match nv with None => full_solution (f_super f) (combine (f_evals f) (f_evecs f)) | Some k => closest_solution 0 k (f_super f) (combine (f_evals f) (f_evecs f)) end ->
  f_warn f = false ->
  forall (A : StarAlg) (S : RScal A) (g : op -> Z -> A), rep ty g -> ~ (@aone A == azero) ->
  forall v, length v = cbasis_len basis ->
    (cimage S g T basis v == cs S (RtoC sign) (cden S g basis v) -> span (cbasis_len basis) (f_ops f) v) /\
    ((forall e, In e (f_evals f) -> e = 0 \/ tol <= Rabs e)%R -> span (cbasis_len basis) (f_ops f) v ->
       cimage S g T basis v == cs S (RtoC sign) (cden S g basis v)).
Proof.
  intros ty eig pinv basis T gm sign nv tol f (H1 & H2 & H3 & H4 & H5 & H6) Hg Ht Hf He Hw A S g Hr Hn v Lv. apply gsign_trans in Hg.
  destruct (invariant_proof ty eig pinv basis T gm sign nv tol H1 H2 H3 H4 H5 H6 Hg) as (f' & H & E & LH & VH & HH & Es & Eo & Ev & Ec & Ew & Ek & _).
  rewrite Hf in E. injection E as <-. pose proof (gsign_sq _ _ Hg) as Hs. rewrite Es, Ev, Ec, combine_pairs in He. rewrite Hw, Eo in Ew. rewrite Eo. rewrite Ev.
  rewrite <- (Ek v Lv A S g Hr Hn). split.
  - intros Hv. apply (invariant_complete _ sign H nv); auto.
  - intros Hgap Hsp.
    assert (Hp : eigenpairs (one_minus (cbasis_len basis) sign H) (map (fun p => (1 - sign * fst p, snd p)%R) (eig nv H))) by (destruct nv; apply He).
    pose proof (invariant_pairs _ _ _ _ Hs LH VH Hp) as He'.
    assert (Hk : forall u, In u (keep (fun e => lt_dec (Rabs (e - sign)) tol) (eig nv H)) -> length u = cbasis_len basis /\ rows_vec H u = vscale (RtoC sign) u).
    { intros u Hu. apply keep_in in Hu. destruct Hu as (l & Hin & Hl). apply lt_dec_true in Hl. destruct (He' l u Hin) as (Lu & _ & Eu). split; auto.
      assert (El : l = sign); [|rewrite Eu, El; auto].
      destruct (Hgap (1 - sign * l)%R) as [Z|Z]; [apply in_map_iff; exists (l, u); auto | |].
      - destruct gm; try discriminate Hg; injection Hg as <-; lra.
      - exfalso. destruct gm; try discriminate Hg; injection Hg as <-; unfold Rabs in Z, Hl; destruct (Rcase_abs _) in Z; destruct (Rcase_abs _) in Hl; lra. }
    assert (Vk : forall u, span (cbasis_len basis) (keep (fun e => lt_dec (Rabs (e - sign)) tol) (eig nv H)) u -> length u = cbasis_len basis).
    { intros u Hu. eapply L_LinAlg.span_length; [|exact Hu]. intros w Hw'. apply (Hk w Hw'). }
    clear - Hsp Hk Vk LH HH VH. induction Hsp as [|c u w Hu Hw IH].
    + change (rows_vec H (vzero (cbasis_len basis)) = vscale (RtoC sign) (vzero (cbasis_len basis))). rewrite vscale_zero, <- LH.
      apply (inner_ext (length H)); [apply rows_vec_length | apply vzero_length|]. intros x Lx. rewrite inner_zero_r.
      destruct HH as [_ HH]. rewrite LH in *. rewrite HH; auto using vzero_length. apply inner_zero_r.
    + change (rows_vec H (vadd (vscale c u) w) = vscale (RtoC sign) (vadd (vscale c u) w)). destruct (Hk u Hu) as [Lu Eu]. specialize (Vk w Hw). specialize (IH).
      set (n := cbasis_len basis) in *. assert (Lc : length (vscale c u) = n) by (rewrite vscale_length; auto).
      assert (La : length (vadd (vscale c u) w) = n) by (apply vadd_length; auto). destruct HH as [_ HH].
      assert (Lr : forall x, length (rows_vec H x) = n) by (intros; rewrite rows_vec_length; auto).
      apply (inner_ext n); [apply Lr | rewrite vscale_length; auto|]. intros x Lx.
      rewrite HH, inner_scale_r, !(inner_add_r n), !inner_scale_r, <- !HH by auto. rewrite Eu, IH, !inner_scale_r. ring.
Qed.
Print Assumptions C83_complete.

(** The transformations of the package satisfy the assumptions on T. *)
Lemma acts_signed ty T (conj : bool) h l : ty <> Fermion -> rep_map ty conj h -> (forall s, In s l -> string_ok ty s /\ canonical s) ->
  (forall s, In s l -> acts_as ty T conj h s) -> signed_permutation ty T l.
Proof.
  intros Hty Hh Hl Ha. split; [eapply acts_monomial; eauto|]. intros s k t Hs Ht.
  destruct (Ha s Hs) as (k' & t' & A1 & A2 & A3 & A4 & A5). destruct (one_term_fun _ _ _ _ _ Ht A1) as [-> ->]. split; auto. apply A4. apply Hl; auto.
Qed.
Theorem C83_transformations : forall l,
  (forall ty, ty <> Fermion -> (forall s, In s l -> string_ok ty s /\ canonical s) -> keeps_type ty time_reversal /\ signed_permutation ty time_reversal l) /\
  ((forall s, In s l -> string_ok Majorana s /\ canonical s) -> keeps_type Majorana particle_hole /\ signed_permutation Majorana particle_hole l) /\
  (forall ty perm f, ty <> Fermion -> permutes perm f -> (forall s, In s l -> string_ok ty s /\ canonical s /\ in_range (length perm) s) ->
     keeps_type ty (label_permutation perm) /\ signed_permutation ty (label_permutation perm) l) /\
  (forall flip f dn, permutes flip f -> (forall s, In s l -> string_ok Majorana s /\ canonical s /\ in_range (length flip) s) ->
     keeps_type Majorana (time_reversal_spinful flip dn) /\ signed_permutation Majorana (time_reversal_spinful flip dn) l).
Proof.
  intros l. split; [|split; [|split]].
  - intros ty Hty Hl. split; [apply time_reversal_keeps|]. apply (acts_signed ty _ true (fun A g => reversed ty g)); auto.
    + intros A g. apply rep_reversed. + intros s Hs. apply time_reversal_acts; auto. apply Hl; auto.
  - intros Hl. split; [apply particle_hole_keeps|]. apply (acts_signed Majorana _ false (fun A g => conjugated g)); auto; [discriminate| |].
    + intros A g. apply rep_conjugated. + intros s Hs. apply particle_hole_acts. apply Hl; auto.
  - intros ty perm f Hty Hp Hl. split; [apply permutation_keeps|]. apply (acts_signed ty _ false _ l Hty (permutation_rep_map ty perm f Hp)).
    + intros s Hs. split; apply Hl; auto. + intros s Hs. destruct (Hl s Hs) as (A & B & C). apply permutation_acts_as; auto.
  - intros flip f dn Hp Hl. split; [apply spinful_keeps|].
    apply (acts_signed Majorana _ true (fun A g => reversed_spin (extended (length flip) f) (fun l => In l dn) (fun l => in_dec Z.eq_dec l dn) g)).
    + discriminate. + intros A g Hg. apply rep_reversed_spin; auto. apply extended_inj; auto. + intros s Hs. split; apply Hl; auto.
    + intros s Hs. destruct (Hl s Hs) as (Hs' & Hc & Hr). destruct (spinful_string flip f dn s Hp Hs' (canonical_std s Hc) Hr) as (k & t & A1 & A2 & A3 & A4 & A5).
      exists k, t. split; auto. split; auto. split; auto. split; auto. intros A g Hg. rewrite <- (A5 A g Hg). apply image_ext.
      intros o z Hin. unfold reversed_spin. rewrite extended_in; [reflexivity|]. apply Hr. eapply in_combine_r; eauto.
Qed.
Print Assumptions C83_transformations.

(** Non-vacuity: the operators in the span of X_0 and X_1 that are invariant under 0 <-> 1. *)
Definition c83_x (l : Z) : OS := mkOS [OX] [l] Pauli p_one.
Definition c83_basis : Basis := mkBasis [c83_x 0; c83_x 1] [(c83_x 0, 0); (c83_x 1, 1)].
Definition c83_swap : rule := label_permutation [1; 0]%Z.
Definition c83_super : list vec := [[RtoC 1; RtoC (-1)]; [RtoC (-1); RtoC 1]].
Definition c83_pairs : list (R * vec) := [((-1)%R, [RtoC 1; RtoC (-1)]); (1%R, [RtoC 1; RtoC 1])].
Lemma c83_string l : string_ok Pauli (c83_x l) /\ canonical (c83_x l).
Proof.
  split; [|split; [repeat constructor | left; reflexivity]]. split; [reflexivity|]. split; [reflexivity|]. split; [intros o [<-|[]]; reflexivity|].
  split; [constructor; [intros [] | constructor] | apply GC_ext; apply Qc_is_canon; reflexivity].
Qed.
Lemma c83_permutes : permutes [1; 0]%Z (fun l => if Z.eqb l 0 then 1 else 0)%Z.
Proof.
  split; [repeat constructor; simpl; intuition discriminate|]. split; [intros l [<-|[<-|[]]]; cbn; lia|].
  intros l H. cbn in H. assert (l = 0 \/ l = 1)%Z as [-> | ->] by lia; reflexivity.
Qed.
Lemma c83_good : good_basis Pauli c83_basis.
Proof. split; [apply (built_new [c83_x 0; c83_x 1]); reflexivity|]. intros s [<-|[<-|[]]]; apply c83_string. Qed.
Lemma c83_columns : symmetry_columns (fun K => K) (CBasis c83_basis) c83_swap = Ok [[RtoC 0; RtoC 1]; [RtoC 1; RtoC 0]].
Proof.
  unfold symmetry_columns. match goal with |- context [symmetry_matrix ?b ?T] => let r := eval vm_compute in (symmetry_matrix b T) in
    replace (symmetry_matrix b T) with r by (vm_compute; reflexivity) end.
  cbn [rbind]. unfold dense_cols. cbn -[Q2R RtoC]. unfold to_C. cbn -[RtoC]. unfold Q2R, RtoC. cbn.
  repeat f_equal; lra.
Qed.
Lemma conj_pinv : forall n K, (forall k, In k K -> length k = n) -> orthonormal K -> least_squares n K (map (map Cconj) K).
Proof.
  intros n K VK OK x Lx. split; [rewrite rows_vec_length, map_length; auto|].
  assert (E : rows_vec (map (map Cconj) K) x = adj K x).
  { unfold rows_vec, adj. rewrite map_map. apply map_ext. intros c. clear. revert x.
    induction c as [|y c IH]; intros [|z x]; cbn; auto. unfold csum in *. cbn. rewrite IH. reflexivity. }
  rewrite E. intros c Hc.
  assert (G : adj K (mat_vec n K (adj K x)) = adj K x) by (apply adj_isometry; auto; apply adj_length).
  unfold adj in G at 1 3. exact (eq_sym (ext_in_map G c Hc)).
Qed.
Lemma c83_setting : invariant_setting Pauli (map (map Cconj)) (CBasis c83_basis) c83_swap.
Proof.
  assert (Hs : forall s, In s (b_strings c83_basis) -> string_ok Pauli s /\ canonical s /\ in_range (length [1; 0]%Z) s).
  { intros s [<-|[<-|[]]]; (split; [apply c83_string|]); (split; [apply c83_string|]); intros l [<-|[]]; cbn; lia. }
  destruct (proj1 (proj2 (proj2 (C83_transformations (b_strings c83_basis)))) Pauli [1; 0]%Z _ ltac:(discriminate) c83_permutes Hs) as [H1 H2].
  split; [apply c83_good|]. split; [apply Hs|]. split; [exact I|]. split; [exact H1|]. split; [exact H2|]. exact conj_pinv.
Qed.
Ltac cvec := repeat (match goal with |- _ :: _ = _ :: _ => f_equal end); try (apply injective_projections; cbn; lra).
Lemma c83_super_eq : one_minus 2 1 (hermitian_rows 2 [[RtoC 0; RtoC 1]; [RtoC 1; RtoC 0]]) = c83_super.
Proof. unfold one_minus, hermitian_rows, c83_super, entry. cbn [seq map nth Nat.eqb]. cvec. Qed.
Lemma c83_full : full_solution c83_super [(2%R, [RtoC 1; RtoC (-1)]); (0%R, [RtoC 1; RtoC 1])].
Proof.
  split.
  - intros l v [E|[E|[]]]; injection E as <- <-; (split; [reflexivity|]); (split; [intros E; injection E; lra|]); cbn; unfold csum; cbn; cvec.
  - intros [|a [|b [|c x]]] H; try discriminate. cbn [length c83_super map snd].
    replace [a; b] with (zip_with Cplus (map (Cmult (RtoC (/ 2) * (a - b))%C) [RtoC 1; RtoC (-1)]) (zip_with Cplus (map (Cmult (RtoC (/ 2) * (a + b))%C) [RtoC 1; RtoC 1]) (repeat (RtoC 0) 2))).
    + apply span_add; [simpl; auto|]. apply span_add; [simpl; auto|]. apply span_zero.
    + cbn. cvec.
Qed.
Example C83_example : exists eig f, invariant_setting Pauli (map (map Cconj)) (CBasis c83_basis) c83_swap /\ trans_sign GCommutator = Some 1%R /\
  invariant_operators eig (map (map Cconj)) (CBasis c83_basis) c83_swap GCommutator None tol10r = Ok f /\
  full_solution (f_super f) (combine (f_evals f) (f_evecs f)) /\ f_warn f = false /\
  (forall e, In e (f_evals f) -> e = 0 \/ tol10r <= Rabs e)%R /\ f_ops f = [[RtoC 1; RtoC 1]].
Proof.
  exists (fun _ _ => c83_pairs). eexists. split; [apply c83_setting|]. split; [reflexivity|]. split; [|split; [|split; [|split]]].
  - unfold invariant_operators. change (symmetry_columns (map (map Cconj)) (CBasis c83_basis) c83_swap) with (symmetry_columns (fun K => K) (CBasis c83_basis) c83_swap).
    rewrite c83_columns. cbn [rbind gsign cbasis_len]. reflexivity.
  - cbn [f_super f_evals f_evecs]. change (basis_len c83_basis) with 2. rewrite c83_super_eq. cbn [map c83_pairs combine fst snd].
    replace (1 - 1 * -1)%R with 2%R by lra. replace (1 - 1 * 1)%R with 0%R by lra. apply c83_full.
  - reflexivity.
  - intros e He. assert (E : (e = 2 \/ e = 0)%R) by (destruct He as [<-|[<-|[]]]; cbn; lra).
    destruct E as [-> | ->]; auto. right. rewrite Rabs_right by lra. unfold tol10r. simpl. lra.
  - unfold keep. cbn [f_ops filter c83_pairs fst map].
    replace (lt_dec (Rabs (-1 - 1)) tol10r) with false. replace (lt_dec (Rabs (1 - 1)) tol10r) with true. reflexivity.
    + symmetry. apply lt_dec_true. replace (1 - 1)%R with 0%R by lra. rewrite Rabs_R0. unfold tol10r. simpl. lra.
    + symmetry. apply not_true_iff_false. rewrite lt_dec_true, Rabs_left by lra. unfold tol10r. simpl. lra.
Qed.
(** A list of orthonormal Operators: (3 X_0 + 4 X_1)/5 and (4 X_0 - 3 X_1)/5. *)
Example C83_list_example : invariant_setting Pauli (map (map Cconj)) (COps [mkCOp [RtoC (3 / 5); RtoC (4 / 5)] c83_basis Pauli; mkCOp [RtoC (4 / 5); RtoC (- 3 / 5)] c83_basis Pauli]) c83_swap.
Proof.
  assert (Hs : forall s, In s [c83_x 0; c83_x 1; c83_x 0; c83_x 1] -> string_ok Pauli s /\ canonical s /\ in_range (length [1; 0]%Z) s).
  { intros s [<-|[<-|[<-|[<-|[]]]]]; (split; [apply c83_string|]); (split; [apply c83_string|]); intros l [<-|[]]; cbn; lia. }
  destruct (proj1 (proj2 (proj2 (C83_transformations [c83_x 0; c83_x 1; c83_x 0; c83_x 1]))) Pauli [1; 0]%Z _ ltac:(discriminate) c83_permutes Hs) as [H1 H2].
  split; [|split; [apply Hs|split; [|split; [exact H1|split; [exact H2|exact conj_pinv]]]]].
  - split; [discriminate|]. intros o [<-|[<-|[]]]; (split; [apply c83_good|]); (split; [reflexivity|]); (split; [reflexivity|]); apply c83_good.
  - intros [|[|i]] [|[|j]] o p; cbn [nth_error]; intros E1 E2; try (destruct i; discriminate); try (destruct j; discriminate);
      injection E1 as <-; injection E2 as <-; unfold cop_inner; cbn; apply injective_projections; cbn; lra.
Qed.

(** C84: the claim is that invariant_operators finds the invariant operators in the span of any
    list of linearly independent Operators.  It is false: the Hermitian part of the symmetry
    matrix in a basis that is not orthonormal has other eigenvalues.  For X_0 and X_0 + X_1 and
    the exchange of 0 and 1, nothing is found, although the second Operator is invariant. *)
Definition c84_ops : list COp := [mkCOp [RtoC 1] (mkBasis [c83_x 0] [(c83_x 0, 0)]) Pauli; mkCOp [RtoC 1; RtoC 1] c83_basis Pauli].
Definition c84_columns : list (list C) := [[RtoC 1; RtoC 0]; [RtoC 1; RtoC 1]].
Lemma c84_matrix pinv : least_squares 2 c84_columns (pinv c84_columns) -> symmetry_columns pinv (COps c84_ops) c83_swap = Ok [[RtoC (-1); RtoC 1]; [RtoC 0; RtoC 1]].
Proof.
  intros HP.
  assert (EP : forall a b, rows_vec (pinv c84_columns) [a; b] = [(a - b)%C; b]).
  { intros a b. destruct (HP [a; b] eq_refl) as [L E]. pose proof (E [RtoC 1; RtoC 0] ltac:(left; reflexivity)) as E1.
    pose proof (E [RtoC 1; RtoC 1] ltac:(right; left; reflexivity)) as E2. destruct (rows_vec (pinv c84_columns) [a; b]) as [|p [|q [|r l]]]; try discriminate.
    destruct a, b, p, q. cbn in E1, E2. injection E1 as A1 A2. injection E2 as B1 B2. cvec. }
  unfold symmetry_columns, c84_ops. fold c84_ops.
    replace (ccombined c84_ops) with c83_basis by (vm_compute; reflexivity).
    replace (rmap (coeff_column c83_basis) c84_ops) with (Ok c84_columns).
    - cbn [rbind]. match goal with |- context [symmetry_matrix ?b ?T] => let r := eval vm_compute in (symmetry_matrix b T) in
        replace (symmetry_matrix b T) with r by (vm_compute; reflexivity) end.
      cbn [rbind c84_columns map]. f_equal.
      match goal with |- context [rows_vec (dense_rows ?M)] => set (D := dense_rows M) end.
      assert (ED : D = [[RtoC 0; RtoC 1]; [RtoC 1; RtoC 0]]).
      { unfold D, dense_rows. cbn -[Q2R RtoC]. unfold to_C. cbn -[RtoC]. unfold Q2R, RtoC. cbn. repeat f_equal; lra. }
      rewrite ED. fold c84_columns. cbn [rows_vec map zip_with csum fold_right]. fold (rows_vec (pinv c84_columns)). unfold c84_columns at 2. rewrite !EP. cvec.
    - unfold c84_ops. cbn [rmap]. unfold coeff_column. cbn [c_terms c_coeffs c_basis combine b_strings c83_basis rmap snd fst].
      replace (basis_index c83_basis (c83_x 0)) with (Ok 0) by (vm_compute; reflexivity).
      replace (basis_index c83_basis (c83_x 1)) with (Ok 1) by (vm_compute; reflexivity). cbn [rbind]. change (basis_len c83_basis) with 2.
      unfold c84_columns. cbn [seq map Nat.eqb fst snd csum fold_right]. f_equal. cvec.
Qed.
Theorem C84_refuted : good_cbasis Pauli (COps c84_ops) /\ keeps_type Pauli c83_swap /\ signed_permutation Pauli c83_swap (cbasis_strings (COps c84_ops)) /\
  (forall (A : StarAlg) (S : RScal A) (g : op -> Z -> A), cimage S g c83_swap (COps c84_ops) [RtoC 0; RtoC 1] == cden S g (COps c84_ops) [RtoC 0; RtoC 1]) /\
  forall eig pinv, least_squares 2 c84_columns (pinv c84_columns) ->
    exists f, invariant_operators eig pinv (COps c84_ops) c83_swap GCommutator None tol10r = Ok f /\
      (full_solution (f_super f) (combine (f_evals f) (f_evecs f)) -> f_ops f = []).
Proof.
  assert (Hs : forall s, In s [c83_x 0; c83_x 0; c83_x 1] -> string_ok Pauli s /\ canonical s /\ in_range (length [1; 0]%Z) s).
  { intros s [<-|[<-|[<-|[]]]]; (split; [apply c83_string|]); (split; [apply c83_string|]); intros l [<-|[]]; cbn; lia. }
  destruct (proj1 (proj2 (proj2 (C83_transformations [c83_x 0; c83_x 0; c83_x 1]))) Pauli [1; 0]%Z _ ltac:(discriminate) c83_permutes Hs) as [H1 H2].
  split; [|split; [exact H1|split; [exact H2|split]]].
  - split; [discriminate|]. intros o [<-|[<-|[]]].
    + split; [apply (built_new [c83_x 0]); reflexivity|]. split; [reflexivity|]. split; [reflexivity|]. intros s [<-|[]]. apply c83_string.
    + split; [apply c83_good|]. split; [reflexivity|]. split; [reflexivity|]. apply c83_good.
  - intros A S g. unfold cimage, cden. cbn [combine c84_ops map fst snd asum fold_right c_terms c_coeffs c_basis b_strings c83_basis].
    rewrite !cs_0, !aadd_0_l, !aadd_0_r, !cs_1. unfold timage.
    match goal with |- context [c83_swap (c83_x 0)] => let r := eval vm_compute in (c83_swap (c83_x 0)) in replace (c83_swap (c83_x 0)) with r by (vm_compute; reflexivity) end.
    match goal with |- context [c83_swap (c83_x 1)] => let r := eval vm_compute in (c83_swap (c83_x 1)) in replace (c83_swap (c83_x 1)) with r by (vm_compute; reflexivity) end.
    unfold lincomb, clincomb, op_terms. cbn [combine o_coeffs o_basis b_strings map fst snd asum fold_right]. rewrite !cs_1, !aadd_0_r. 
    rewrite aadd_comm.
    apply aadd_proper; (match goal with |- ?z · _ == _ => replace z with g1 by (apply GC_ext; apply Qc_is_canon; reflexivity) end); rewrite ascal_1; reflexivity.
  - intros eig pinv HP.
    pose proof (c84_matrix pinv HP) as EC.
    unfold invariant_operators. rewrite EC. cbn [rbind gsign cbasis_len c84_ops length]. eexists. split; [reflexivity|]. cbn [f_super f_evals f_evecs f_ops].
    set (H := hermitian_rows 2 _). rewrite combine_pairs. intros [He _].
    assert (EH : H = [[RtoC (-1); RtoC (/ 2)]; [RtoC (/ 2); RtoC 1]]) by (unfold H, hermitian_rows, entry; cbn [seq map nth]; cvec).
    pose proof (invariant_pairs 2 1 H _ ltac:(lra) (hermitian_rows_length _ _) (hermitian_rows_vectors _ _) He) as Hp.
    destruct (keep _ _) as [|v l] eqn:Ek; auto. exfalso.
    assert (Hv : In v (keep (fun e => lt_dec (Rabs (e - 1)) tol10r) (eig None H))) by (rewrite Ek; left; auto).
    apply keep_in in Hv. destruct Hv as (e & Hin & Ht). apply lt_dec_true in Ht. destruct (Hp e v Hin) as (Lv & Nz & Ev).
    destruct v as [|a [|b [|c v]]]; try discriminate. rewrite EH in Ev. cbn in Ev. unfold csum in Ev. cbn in Ev.
    assert (Be : (9 / 10 < e < 11 / 10)%R).
    { assert (tol10r < / 10)%R by (unfold tol10r; simpl; lra). unfold Rabs in Ht. destruct (Rcase_abs _); lra. }
    destruct a as [a1 a2], b as [b1 b2]. injection Ev as V1 V2 V3 V4.
    assert (Q : forall x y, (- x + / 2 * y = e * x -> / 2 * x + y = e * y -> x = 0 /\ y = 0)%R).
    { intros x y X Y. assert ((e * e - 5 / 4) * x = 0 /\ (e * e - 5 / 4) * y = 0)%R as [Z1 Z2] by (split; nra).
      assert (e * e - 5 / 4 <> 0)%R by nra. split; apply Rmult_integral in Z1, Z2; tauto. }
    destruct (Q a1 b1) as [-> ->]; [lra | lra|]. destruct (Q a2 b2) as [-> ->]; [lra | lra|]. apply Nz. reflexivity.
Qed.
Print Assumptions C84_refuted.
(** Such oracles exist. *)
Example C84_example : exists eig pinv f, least_squares 2 c84_columns (pinv c84_columns) /\
  invariant_operators eig pinv (COps c84_ops) c83_swap GCommutator None tol10r = Ok f /\
  full_solution (f_super f) (combine (f_evals f) (f_evecs f)).
Proof.
  set (e := (sqrt 5 / 2)%R). assert (Se : (e * e = 5 / 4)%R) by (unfold e; pose proof (sqrt_sqrt 5 ltac:(lra)); nra).
  assert (Ne : e <> 0%R) by (intros E; rewrite E in Se; lra).
  exists (fun _ _ => [(e, [RtoC (/ 2); RtoC (1 + e)]); ((- e)%R, [RtoC (/ 2); RtoC (1 - e)])]), (fun _ => [[RtoC 1; RtoC (-1)]; [RtoC 0; RtoC 1]]).
  assert (HP : least_squares 2 c84_columns [[RtoC 1; RtoC (-1)]; [RtoC 0; RtoC 1]]).
  { intros [|a [|b [|c x]]] L; try discriminate. split; [reflexivity|]. intros c [<-|[<-|[]]]; destruct a, b; cbn; apply injective_projections; cbn; lra. }
  destruct (proj2 (proj2 (proj2 (proj2 C84_refuted))) (fun _ _ => [(e, [RtoC (/ 2); RtoC (1 + e)]); ((- e)%R, [RtoC (/ 2); RtoC (1 - e)])]) (fun _ => [[RtoC 1; RtoC (-1)]; [RtoC 0; RtoC 1]]) HP) as (f & Ef & _).
  exists f. split; [exact HP|]. split; [exact Ef|].
  assert (EC : symmetry_columns (fun _ => [[RtoC 1; RtoC (-1)]; [RtoC 0; RtoC 1]]) (COps c84_ops) c83_swap = Ok [[RtoC (-1); RtoC 1]; [RtoC 0; RtoC 1]]) by exact (c84_matrix _ HP).
  unfold invariant_operators in Ef. change (fun _ : list (list C) => [[RtoC 1; RtoC (-1)]; [RtoC 0; RtoC 1]]) with (fun _ : list vec => [[RtoC 1; RtoC (-1)]; [RtoC 0; RtoC 1]]) in EC, Ef.
  match type of Ef with context [symmetry_columns ?p ?b ?t] => assert (EC' : symmetry_columns p b t = Ok [[RtoC (-1); RtoC 1]; [RtoC 0; RtoC 1]]) by exact EC end.
  rewrite EC' in Ef. injection Ef as <-. cbn [f_super f_evals f_evecs cbasis_len c84_ops length map combine fst snd].
  set (D := one_minus 2 1 _). assert (ED : D = [[RtoC 2; RtoC (- / 2)]; [RtoC (- / 2); RtoC 0]]) by (unfold D, one_minus, hermitian_rows, entry; cbn [seq map nth Nat.eqb]; cvec).
  rewrite ED. split.
  - intros l v [E|[E|[]]]; injection E as <- <-; (split; [reflexivity|]); (split; [intros E; injection E; lra|]); cbn; unfold csum; cbn; cvec.
  - intros [|a [|b [|c x]]] L; try discriminate. cbn [length map snd].
    replace [a; b] with (zip_with Cplus (map (Cmult (a + RtoC (/ (2 * e)) * (b - RtoC 2 * a))%C) [RtoC (/ 2); RtoC (1 + e)])
      (zip_with Cplus (map (Cmult (a - RtoC (/ (2 * e)) * (b - RtoC 2 * a))%C) [RtoC (/ 2); RtoC (1 - e)]) (repeat (RtoC 0) 2))).
    + apply span_add; [simpl; auto|]. apply span_add; [simpl; auto|]. apply span_zero.
    + cbn. repeat (match goal with |- _ :: _ = _ :: _ => f_equal end); apply injective_projections; cbn; field; auto.
Qed.
