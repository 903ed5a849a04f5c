(** commuting_operators: what it finds. *)
From Coq Require Import List ZArith Bool Arith Lia Setoid Morphisms Reals Qcanon Lra.
From Coquelicot Require Import Complex.
From Verif Require Import GC Exn M_OpString M_Tools M_Algebra M_Basis M_OpAlg M_Transform M_LinAlg M_Core S_Alg S_Den S_Basis S_Built S_OpAlg S_RScal S_CFock S_CScal S_LinAlg S_Core
  L_Alg L_Basis L_OpAlg L_Struct L_CScal L_LinAlg L_Inter L_Herm L_Core.
Import ListNotations.
Local Open Scope nat_scope.
Local Open Scope alg_scope.

Lemma sqsum_norm2c v : sqsum v = norm2c v.
Proof. apply RtoC_inj. rewrite <- inner_self. unfold norm2c. induction v as [|[a b] v IH]; simpl; auto. rewrite IH. apply C_ext; simpl; lra. Qed.

Lemma gram_hermitian n cols : vectors n cols -> hermitian (length cols) (gram cols).
Proof.
  intros H. split; [apply gram_length|]. intros x y Hx Hy. rewrite (gram_form n) by auto.
  rewrite (inner_sym x (rows_vec (gram cols) y)), (gram_form n) by auto. apply inner_sym.
Qed.
Lemma gram_eigen n cols l v : vectors n cols -> length v = length cols -> rows_vec (gram cols) v = vscale (RtoC l) v ->
  sqsum (mat_vec n cols v) = (l * sqsum v)%R.
Proof.
  intros H Hv E. apply RtoC_inj. rewrite <- inner_self, <- (gram_form n), E, inner_scale_r, inner_self, RtoC_mult by auto. reflexivity.
Qed.

Lemma keep_in test ps v : In v (keep test ps) -> exists l, In (l, v) ps /\ test l = true.
Proof. intros H. apply in_map_iff in H. destruct H as ([l u] & <- & H). apply filter_In in H. exists l. exact H. Qed.
Lemma keep_orthonormal test ps : orthonormal (map snd ps) -> orthonormal (keep test ps).
Proof.
  intros H. unfold keep. induction ps as [|[l v] ps IH]; simpl; auto.
  destruct (ortho_tail _ _ H) as (H2 & H3 & H1). simpl in *.
  destruct (test l); [|apply IH; auto]. simpl.
  assert (Hsub : forall w, In w (map snd (filter (fun p => test (fst p)) ps)) -> In w (map snd ps)).
  { intros w Hw. apply in_map_iff in Hw. destruct Hw as (p & <- & Hp). apply filter_In in Hp. apply in_map. tauto. }
  destruct (IH H1) as [I1 I2]. split.
  - intros w [<-|Hw]; auto.
  - intros [|i] [|j] a b; simpl; intros Ha Hb Hij; try congruence.
    + injection Ha as <-. apply H3, Hsub. eapply nth_error_In; eauto.
    + injection Hb as <-. apply H3, Hsub. eapply nth_error_In; eauto.
    + eapply I2; eauto.
Qed.

Lemma lt_dec_true x y : lt_dec x y = true <-> (x < y)%R.
Proof. unfold lt_dec. destruct (Rlt_dec x y); split; intros; auto; try discriminate; contradiction. Qed.

Section Commuting.
  Variables (ty : optype) (gm : gmode) (m : mode) (basis : cbasis) (o : Operator).
  Hypotheses (Hty : ty <> Fermion) (Hb : good_cbasis ty basis) (Ho : good_op ty o) (Hm : op_mode gm = Some m).
  Variables (eig : eigensolver) (nv : option nat) (tol : R).

  Theorem commuting_proof : exists f C cols, commuting_operators eig basis o gm nv tol = Ok f /\
    f_super f = gram cols /\ canonical_basis ty C /\ vectors (basis_len C) cols /\ length cols = cbasis_len basis /\
    f_ops f = keep (fun e => lt_dec (Rabs e) tol) (eig nv (f_super f)) /\ f_warn f = all_kept nv (f_ops f) /\
    f_evals f = map fst (eig nv (f_super f)) /\ f_evecs f = map snd (eig nv (f_super f)) /\
    forall (A : StarAlg) (S : RScal A) (g : op -> Z -> A), rep ty g -> forall v, length v = cbasis_len basis ->
      exact m (cden S g basis v) (lincomb g (op_terms o)) == clincomb S g (combine (mat_vec (basis_len C) cols v) (b_strings C)).
  Proof.
    destruct (liouvillian_columns_ok ty gm m basis o Hty Hb Ho Hm) as (cols & C & HL & HC & Vc & Lc & D).
    unfold commuting_operators. rewrite HL. cbn [rbind]. eexists _, C, cols. split; [reflexivity|]. simpl.
    do 8 (split; [auto; fail|]). auto.
  Qed.
End Commuting.

Lemma commuting_kernel ty m basis o C cols (A : StarAlg) (S : RScal A) (g : op -> Z -> A) : rep ty g -> ~ (@aone A == azero) ->
  canonical_basis ty C -> vectors (basis_len C) cols -> length cols = cbasis_len basis ->
  (forall v, length v = cbasis_len basis ->
      exact m (cden S g basis v) (lincomb g (op_terms o)) == clincomb S g (combine (mat_vec (basis_len C) cols v) (b_strings C))) ->
  forall v, length v = cbasis_len basis ->
  (rows_vec (gram cols) v = repeat (RtoC 0) (cbasis_len basis) <-> exact m (cden S g basis v) (lincomb g (op_terms o)) == azero).
Proof.
  intros Hr Hn HC Vc Lc D v Lv. rewrite (D v Lv), (ccanonical_zero S ty g Hr Hn C) by (auto; apply mat_vec_length; auto).
  pose proof (gram_kernel (basis_len C) cols Vc v) as K. rewrite Lc in K. exact (K Lv).
Qed.

Lemma eigenpairs_vscale D ps : eigenpairs D ps -> forall l v, In (l, v) ps -> length v = length D /\ rows_vec D v = vscale (RtoC l) v.
Proof. intros H l v Hin. destruct (H l v Hin) as (H1 & _ & H2). auto. Qed.

Lemma gram_complete n cols nv ps tol x : vectors n cols -> (0 < tol)%R ->
  match nv with None => full_solution (gram cols) ps | Some k => lowest_solution k (gram cols) ps end ->
  all_kept nv (keep (fun e => lt_dec (Rabs e) tol) ps) = false ->
  length x = length cols -> rows_vec (gram cols) x = vzero (length cols) ->
  span (length cols) (keep (fun e => lt_dec (Rabs e) tol) ps) x.
Proof.
  intros Vc Ht Hs Hw Lx Hx. pose proof (gram_hermitian n cols Vc) as HH.
  assert (T0 : lt_dec (Rabs 0) tol = true) by (apply lt_dec_true; rewrite Rabs_R0; auto).
  assert (Ex : rows_vec (gram cols) x = vscale (RtoC 0) x) by (rewrite vscale_0, Lx; auto).
  assert (Hp : eigenpairs (gram cols) ps) by (destruct nv; apply Hs).
  pose proof (eigenpairs_vscale _ _ Hp) as He. rewrite gram_length in He.
  apply (select_complete (length cols) (gram cols) (fun e => lt_dec (Rabs e) tol) ps 0); auto.
  destruct nv as [k|].
  - destruct Hs as (_ & Lk & Hl). rewrite gram_length in Hl. destruct (Hl 0%R x Lx Ex) as [H|H]; auto. exfalso.
    simpl in Hw. apply Nat.eqb_neq in Hw. apply Hw. unfold keep. rewrite map_length, <- Lk. f_equal.
    assert (A0 : forall p, In p ps -> lt_dec (Rabs (fst p)) tol = true).
    { intros [l v] Hin. simpl. apply lt_dec_true. specialize (H l v Hin). destruct (He l v Hin) as [Lv Ev].
      pose proof (gram_eigen n cols l v Vc Lv Ev) as E. pose proof (sqsum_nonneg (mat_vec n cols v)) as P.
      destruct (Hp l v Hin) as (_ & Nz & _). rewrite gram_length, <- Lv in Nz. apply sqsum_pos in Nz.
      assert (0 <= l)%R; [|rewrite Rabs_right; lra].
      destruct (Rle_dec 0 l); auto. exfalso. assert (l * sqsum v < 0)%R; [|lra].
      replace 0%R with (0 * sqsum v)%R by ring. apply Rmult_lt_compat_r; lra. }
    clear - A0. induction ps as [|p ps IH]; simpl; auto. rewrite A0 by (simpl; auto). f_equal. apply IH. intros; apply A0; simpl; auto.
  - destruct Hs as [_ Hf]. rewrite gram_length in Hf. auto.
Qed.

Lemma gram_sound n cols ps tol v : vectors n cols -> eigenpairs (gram cols) ps ->
  In v (keep (fun e => lt_dec (Rabs e) tol) ps) ->
  length v = length cols /\ v <> vzero (length cols) /\ (sqsum (mat_vec n cols v) < tol * sqsum v)%R.
Proof.
  intros Vc Hp Hin. apply keep_in in Hin. destruct Hin as (l & Hin & T). apply lt_dec_true in T.
  destruct (Hp l v Hin) as (Lv & Nz & Ev). rewrite gram_length in *. split; auto. split; auto.
  rewrite (gram_eigen n cols l v Vc Lv Ev). apply Rmult_lt_compat_r; [|apply Rle_lt_trans with (Rabs l); auto; apply Rle_abs].
  apply sqsum_pos. rewrite Lv. auto.
Qed.

(* ------------------------------------------------------ unknown modes *)

Lemma liouvillian_unknown ty gm b o : ty <> Fermion -> good_basis ty b -> good_op ty o -> op_mode gm = None ->
  liouvillian_mode gm b o = Ok (sm_zero 0 (basis_len b), basis_empty).
Proof.
  intros Hty Hb Ho Hm. destruct (liouvillian_strings_proof ty MCommutator b o Hty Hb Ho) as (L & C & HL & _).
  cbn in HL. destruct gm; cbn in Hm; try discriminate; unfold liouvillian_mode; rewrite HL; reflexivity.
Qed.
Lemma gram_nil cols : (forall c, In c cols -> c = []) -> forall v, rows_vec (gram cols) v = vzero (length cols).
Proof.
  intros H v. unfold gram, rows_vec. rewrite map_map.
  assert (E : forall c, In c cols -> csum (zip_with Cmult (map (vdot c) cols) v) = RtoC 0).
  { intros c Hc. rewrite (H c Hc). clear. revert v. induction cols as [|d cols IH]; intros [|z v]; simpl; auto.
    unfold csum in *. simpl. rewrite IH. replace (vdot [] d) with (RtoC 0) by (unfold vdot; destruct d; reflexivity). ring. }
  transitivity (map (fun _ : vec => RtoC 0) cols); [apply map_ext_in, E|]. clear. unfold vzero. induction cols; simpl; f_equal; auto.
Qed.
Theorem unknown_mode_proof ty gm basis o eig nv tol : ty <> Fermion -> good_cbasis ty basis -> good_op ty o -> op_mode gm = None ->
  exists f, commuting_operators eig basis o gm nv tol = Ok f /\ length (f_super f) = cbasis_len basis /\
    forall v, rows_vec (f_super f) v = repeat (RtoC 0) (cbasis_len basis).
Proof.
  intros Hty Hb Ho Hm.
  assert (G : exists cols, liouvillian_columns gm basis o = Ok cols /\ length cols = cbasis_len basis /\ forall c, In c cols -> c = []).
  { destruct basis as [b|ops].
    - unfold liouvillian_columns. rewrite (liouvillian_unknown ty) by auto. eexists. split; [reflexivity|].
      split; [rewrite dense_cols_length; reflexivity|]. intros c Hc. apply in_map_iff in Hc. destruct Hc as (j & <- & _). reflexivity.
    - destruct Hb as [Hne Hops]. destruct ops as [|o0 ops0]; [congruence|]. unfold liouvillian_columns.
      destruct (ccombined_ok ty (o0 :: ops0) Hops) as [Hb Hin]. destruct (coeff_columns_ok ty _ Hb _ Hops Hin) as (K & EK & FK).
      rewrite (liouvillian_unknown ty) by auto. cbn [rbind]. rewrite EK. eexists. split; [reflexivity|].
      split; [rewrite map_length; symmetry; apply (Forall2_length' _ _ _ FK)|].
      intros c Hc. apply in_map_iff in Hc. destruct Hc as (j & <- & _). reflexivity. }
  destruct G as (cols & E & Lc & Hn). unfold commuting_operators. rewrite E. eexists. split; [reflexivity|]. simpl.
  split; [rewrite gram_length; auto|]. intros v. rewrite gram_nil by auto. exact (f_equal vzero Lc).
Qed.
