(** The results of the noncumulative generator, with sparsification. *)
From Coq Require Import List ZArith Bool Arith Lia Reals Lra.
From Coquelicot Require Import Complex.
From Verif Require Import GC Exn S_Alg M_OpString M_Algebra M_Basis M_Transform M_LinAlg M_Core S_Den S_Basis S_Built S_OpAlg S_Transform S_RScal S_CScal S_LinAlg S_Core S_Invariant S_Sparsify S_Generate
  L_LinAlg L_Inter L_Herm L_Core L_Commuting L_Trans5 L_PartIso L_Invariant3 L_Sparsify L_Generate.
Import ListNotations.
Local Open Scope nat_scope.

Lemma span_member n vs v : In v vs -> length v = n -> span n vs v.
Proof.
  intros Hv L. replace v with (zip_with Cplus (map (Cmult (RtoC 1)) v) (repeat (RtoC 0) n)); [apply span_add; [auto | apply span_zero]|].
  change (vadd (vscale (RtoC 1) v) (vzero n) = v). rewrite vscale_one. apply vadd_0r. auto.
Qed.

Section Generate.
  Variables (ty : optype) (Or : oracles) (b : cbasis) (tol : R).
  Hypotheses (Hb : good_cbasis ty b) (Ht : (0 < tol)%R).
  Let n := cbasis_len b.

  (** The vectors in the kernels of the superoperators of the symmetries 0..k. *)
  Definition in_kernels (syms : list entry_sym) (k : nat) (v : vec) : Prop :=
    length v = n /\ forall i y f, i <= k -> nth_error syms i = Some y -> search Or b y tol = Ok f -> rows_vec (f_super f) v = vzero n.
  Definition basis_of_kernels (syms : list entry_sym) (k : nat) (vs : list vec) : Prop :=
    vectors n vs /\ orthonormal vs /\ forall v, span n vs v <-> in_kernels syms k v.
  Definition generated (syms : list entry_sym) (st : nstate) : Prop :=
    length (n_pout st) = length syms /\ length (n_out st) = length syms /\ length (n_super st) = length syms /\
    (forall k vs, nth_error (n_pout st) k = Some vs -> basis_of_kernels syms k vs) /\
    (forall k y f, nth_error syms k = Some y -> search Or b y tol = Ok f -> nth_error (n_out st) k = Some (f_ops f) /\ nth_error (n_super st) k = Some (f_super f)).

  Theorem generate_ok syms : (forall y, In y syms -> good_sym ty Or b y /\ y_num y = None) -> exact_run Or b syms tol ->
    exists st, generate_noncumulative Or b syms false false tol n_fresh = Ok (Some st) /\ generated syms st.
  Proof.
    induction syms as [|y syms IH] using rev_ind; intros Hg HE.
    - exists n_fresh. split; [reflexivity|]. split; auto. split; auto. split; auto. split; intros [|k]; discriminate.
    - destruct IH as (st & Es & P1 & P2 & P3 & P4 & P5).
      { intros z Hz. apply Hg, in_or_app. auto. }
      { destruct HE as [E1 E2]. split; [intros z f Hz; apply E1, in_or_app; auto|]. intros s' z rest st prev f -> . apply (E2 s' z (rest ++ [y])). rewrite <- app_assoc. reflexivity. }
      destruct (Hg y) as [Gy Ny]; [apply in_or_app; right; left; auto|].
      destruct (search_ok ty Or b tol Hb Ht y Gy Ny) as (f & Ef & HH & Hk & _). fold n in HH, Hk.
      specialize (Hk (proj1 HE y f ltac:(apply in_or_app; right; left; auto) Ef)). destruct Hk as (V & O & S).
      destruct (generate_snoc Or b tol syms y f) as [Eg Ec]; auto.
      { intros z Hz. destruct (Hg z) as [Gz Nz]; [apply in_or_app; auto|]. destruct (search_ok ty Or b tol Hb Ht z Gz Nz) as (fz & Ez & _). eauto. }
      rewrite Es in Eg. destruct (Ec st Es) as [(C1 & C2 & C3 & C4) C5]. clear Ec.
      (* the step *)
      assert (Step : exists st' out, n_project Or n tol (add_found st f) (length syms, y) = Ok (Some st') /\ n_pout st' = n_pout st ++ [out] /\ same_found (add_found st f) st' /\
                 vectors n out /\ orthonormal out /\ forall v, span n out v <-> in_kernels (syms ++ [y]) (length syms) v).
      { assert (Nk : nth_error (syms ++ [y]) (length syms) = Some y) by (rewrite nth_error_app2, Nat.sub_diag by lia; reflexivity).
        unfold n_project, add_found. cbn [n_super n_evals n_evecs n_out n_psuper n_pevals n_pevecs n_pout n_inter].
        replace (nth_error (n_out st ++ [f_ops f]) (length syms)) with (Some (f_ops f)) by (rewrite nth_error_app2, C4, Nat.sub_diag by lia; reflexivity).
        replace (nth_error (n_super st ++ [f_super f]) (length syms)) with (Some (f_super f)) by (rewrite nth_error_app2, C1, Nat.sub_diag by lia; reflexivity).
        replace (nth_error (n_evals st ++ [f_evals f]) (length syms)) with (Some (f_evals f)) by (rewrite nth_error_app2, C2, Nat.sub_diag by lia; reflexivity).
        replace (nth_error (n_evecs st ++ [f_evecs f]) (length syms)) with (Some (f_evecs f)) by (rewrite nth_error_app2, C3, Nat.sub_diag by lia; reflexivity).
        cbn [rbind of_option]. destruct (Nat.eqb_spec (length syms) 0) as [Z|Z].
        - eexists _, (f_ops f). split; [reflexivity|]. split; [reflexivity|]. split; [repeat split|]. split; auto. split; auto.
          intros v. rewrite S. destruct syms; [|discriminate Z]. split; intros [Lv Hv]; split; auto.
          + intros i z fz Hi Hz Ez. assert (i = 0) by (simpl in Hi; lia). subst i. injection Hz as <-. rewrite Ef in Ez. injection Ez as <-. auto.
          + apply (Hv 0 y f); auto.
        - destruct (nth_error (n_pout st) (length syms - 1)) as [prev|] eqn:Ep; [|apply nth_error_None in Ep; lia]. cbn [rbind of_option].
          destruct (P4 _ _ Ep) as (Vp & Op & Sp). destruct HE as [_ E2].
          destruct (E2 syms y [] st prev f eq_refl Es Ep Ef) as [X1 X2].
          destruct (project_step Or n tol Ht (f_ops f) prev (f_super f) V O Vp Op HH) as (P & EP & W1 & W2 & W3); auto.
          { intros v Hv. apply S. auto. }
          unfold inter_solver in EP. rewrite EP, Ny. cbn [rbind]. eexists _, _. split; [reflexivity|]. split; [reflexivity|]. split; [repeat split|].
          split; [exact W1|]. split; [exact W2|]. intros v. rewrite W3, S, Sp. split.
          + intros [[Lv Ev] [_ Hv]]. split; auto. intros i z fz Hi Hz Ez. destruct (Nat.eq_dec i (length syms)) as [->|N].
            * rewrite Nk in Hz. injection Hz as <-. rewrite Ef in Ez. injection Ez as <-. auto.
            * apply (Hv i z fz); auto; [lia|]. rewrite nth_error_app1 in Hz by lia. auto.
          + intros [Lv Hv]. split; [split; auto; apply (Hv (length syms) y f); auto|]. split; auto.
            intros i z fz Hi Hz Ez. apply (Hv i z fz); auto; [lia|]. rewrite nth_error_app1; auto. apply nth_error_Some. congruence. }
      destruct Step as (st' & out & E' & Eo & (F1 & F2 & F3 & F4) & O1 & O2 & O3). exists st'. split; [fold n in Eg; rewrite Eg; exact E'|].
      unfold generated. rewrite Eo, F4, F1. unfold add_found. cbn [n_out n_super]. rewrite !app_length, C5, C4, C1. simpl (length [_]).
      split; auto. split; auto. split; auto. split.
      + intros k vs Hk. destruct (Nat.lt_ge_cases k (length syms)) as [L|L].
        * rewrite nth_error_app1 in Hk by lia. destruct (P4 k vs Hk) as (A1 & A2 & A3). split; auto. split; auto. intros v. rewrite A3.
          split; intros [Lv Hv]; split; auto; intros i z fz Hi Hz Ez; apply (Hv i z fz); auto; rewrite nth_error_app1 in *; auto; lia.
        * assert (k = length syms) as ->. { assert (X : k < length (n_pout st ++ [out])) by (apply nth_error_Some; congruence). rewrite app_length, C5 in X. simpl in X. lia. }
          rewrite nth_error_app2, C5, Nat.sub_diag in Hk by lia. injection Hk as <-. split; auto.
      + intros k z fz Hz Ez. destruct (Nat.lt_ge_cases k (length syms)) as [L|L].
        * rewrite nth_error_app1 in Hz by lia. rewrite !nth_error_app1 by lia. apply (P5 k z fz); auto.
        * assert (k = length syms) as ->. { assert (X : k < length (syms ++ [y])) by (apply nth_error_Some; congruence). rewrite app_length in X. simpl in X. lia. }
          rewrite nth_error_app2, Nat.sub_diag in Hz by lia. injection Hz as <-. rewrite Ef in Ez. injection Ez as <-.
          rewrite !nth_error_app2, C4, C1, Nat.sub_diag by lia. auto.
  Qed.
End Generate.

(* ------------------------------------------------------------ sparsification *)

Lemma orthonormal_independent n vs : vectors n vs -> orthonormal vs -> independent n vs.
Proof.
  intros V [O1 O2] l1 v l2 -> Hs.
  assert (L : length v = n) by (apply V, in_or_app; right; left; auto).
  assert (Z : inner v v = RtoC 0).
  { apply (span_orth n l1 v); auto; [intros w Hw; apply V, in_or_app; auto|]. intros w Hw. apply In_nth_error in Hw. destruct Hw as (i & Hi).
    assert (Hl : i < length l1) by (apply nth_error_Some; congruence).
    apply (O2 (length l1) i); [rewrite nth_error_app2, Nat.sub_diag by lia; reflexivity | rewrite nth_error_app1; auto | lia]. }
  rewrite (O1 v) in Z by (apply in_or_app; right; left; auto). apply RtoC_inj in Z. lra.
Qed.
(** No more than n independent vectors. *)
Lemma independent_firstn n k V : independent n V -> independent n (firstn k V).
Proof.
  intros H l1 v l2 E. apply (H l1 v (l2 ++ skipn k V)). rewrite <- (firstn_skipn k V) at 1. rewrite E, <- app_assoc. reflexivity.
Qed.
Lemma firstn_firstn_le {T} (l : list T) i j : i <= j -> firstn i (firstn j l) = firstn i l.
Proof. intros H. rewrite firstn_firstn. f_equal. lia. Qed.
Lemma lu_dimension n V L : vectors n V -> independent n V -> lu_columns n V L -> length V <= n.
Proof.
  intros HV Hi HL. destruct (Nat.le_gt_cases (length V) n) as [|Hl]; auto. exfalso.
  destruct HL as (Ll & Hv & Hp & Hs). rewrite Nat.min_l in Ll by lia.
  destruct (nth_error V n) as [v|] eqn:Ev; [|apply nth_error_None in Ev; lia].
  set (W := firstn n V). assert (LW : length W = n) by (unfold W; rewrite firstn_length; lia).
  assert (HL' : lu_columns n W L).
  { split; [rewrite LW, Nat.min_id; auto|]. split; auto. split; auto. intros j w Hw. apply Hs.
    assert (j < n) by (rewrite <- LW; apply nth_error_Some; congruence). rewrite <- Hw. unfold W.
    rewrite <- (firstn_skipn n V) at 1. rewrite nth_error_app1; auto. fold W. lia. }
  pose proof (proj2 (lu_span n W L (vectors_firstn _ _ _ HV) ltac:(lia) HL') (independent_firstn n n V Hi)) as Sp.
  destruct (nth_error_split V n Ev) as (l1 & l2 & E & Len).
  apply (Hi l1 v l2 E). replace l1 with W. 2:{ unfold W. rewrite E, <- Len, firstn_app, Nat.sub_diag, firstn_all. apply app_nil_r. }
  apply Sp. eapply span_mono; [|apply (Hs n v Ev)]. intros x Hx. rewrite <- (firstn_skipn (S n) L). apply in_or_app; auto.
Qed.
Section Sparse.
  Variables (Or : oracles) (n : nat).
  Hypotheses (Hlu : forall V, vectors n V -> orthonormal V -> lu_columns n V (or_lu Or V)) (Has : forall l, sorts l (or_argsort Or l)).
  Lemma sparsify_orthonormal V : vectors n V -> orthonormal V ->
    exists W, sparsify (or_lu Or) (or_argsort Or) n true tol12r V = Ok (Some W) /\ vectors n W /\ orthonormal W /\ forall v, span n W v <-> span n V v.
  Proof.
    intros HV HO. destruct (Nat.le_gt_cases (length V) 1) as [L|L].
    - exists V. unfold sparsify, vec in *. destruct (Nat.leb_spec (length V) 1); [|lia]. split; auto. split; auto. split; auto. tauto.
    - pose proof (orthonormal_independent n V HV HO) as Hi. pose proof (lu_dimension n V _ HV Hi (Hlu V HV HO)) as Hd.
      destruct (sparsify_proof (or_lu Or) (or_argsort Or) n true tol12r V HV ltac:(lia) (Hlu V HV HO) Has) as (W & E & H1 & H2 & H3 & H4 & H5 & H6 & H7 & _).
      exists W. split; auto. split; auto. split; auto. intros v. split; auto.
  Qed.
  Lemma nth_list_set {T} (l : list T) i x : forall j, nth_error (list_set l i x) j = if Nat.eqb i j then (match nth_error l j with Some _ => Some x | None => None end) else nth_error l j.
  Proof. revert i. induction l as [|y l IH]; intros [|i] [|j]; simpl; auto. - destruct (Nat.eqb i j); auto. Qed.
  Lemma sparsify_all (good : nat -> list vec -> Prop) : (forall k vs ws, good k vs -> vectors n ws -> orthonormal ws -> (forall v, span n ws v <-> span n vs v) -> good k ws) ->
    (forall k vs, good k vs -> vectors n vs /\ orthonormal vs) ->
    forall l st, (forall i, In i l -> i < length (n_pout st)) -> (forall k vs, nth_error (n_pout st) k = Some vs -> good k vs) ->
    exists st', ofold (n_sparsify Or n) l st = Ok (Some st') /\ same_found st st' /\ length (n_pout st') = length (n_pout st) /\
      forall k vs, nth_error (n_pout st') k = Some vs -> good k vs.
  Proof.
    intros G1 G2. induction l as [|i l IH]; intros st Hi Hg.
    - exists st. split; [reflexivity|]. split; [repeat split|]. auto.
    - destruct (nth_error (n_pout st) i) as [cur|] eqn:E; [|exfalso; apply nth_error_None in E; specialize (Hi i (or_introl eq_refl)); lia].
      destruct (G2 i cur (Hg i cur E)) as [V O]. destruct (sparsify_orthonormal cur V O) as (W & EW & W1 & W2 & W3).
      assert (LL : length (list_set (n_pout st) i W) = length (n_pout st)). { clear. generalize (n_pout st). intros l. revert i. induction l as [|y l IH]; intros [|i]; simpl; auto. }
      destruct (IH (set_pout st (list_set (n_pout st) i W))) as (st' & E' & (S1 & S2 & S3 & S4) & L' & G').
      + simpl. rewrite LL. intros; apply Hi; right; auto.
      + simpl. intros k vs. rewrite nth_list_set. destruct (Nat.eqb_spec i k) as [<-|N]; auto. rewrite E. intros X. injection X as <-. apply (G1 i cur); auto.
      + exists st'. split; [|split; [repeat split; auto|split; auto]].
        * assert (X : n_sparsify Or n st i = Ok (Some (set_pout st (list_set (n_pout st) i W)))) by (unfold n_sparsify; rewrite E; cbn [rbind of_option]; rewrite EW; reflexivity).
          unfold ofold in *. cbn [rfold]. rewrite X. exact E'.
        * rewrite L'. simpl. auto.
  Qed.
End Sparse.
