(** Proofs about the search of selected_ci_greedy with target_operator. *)
From Coq Require Import String List ZArith Bool Arith Lia Permutation Sorted Reals QArith Qreals Qcanon Lra.
From Coquelicot Require Import Complex.
From Verif Require Import GC Exn M_OpString M_Tools M_Algebra M_Basis M_OpAlg M_Transform M_LinAlg M_Explore M_Core M_Greedy M_Target
  S_Alg S_Den S_Basis S_Built S_OpAlg S_Explore S_RScal S_CScal S_LinAlg S_Core S_Greedy S_Fidelity S_Search S_Target S_Target2
  L_Alg L_Basis L_PropBasis L_Explore L_Explore2 L_Explore3 L_Explore4
  L_CScal L_LinAlg L_Inter L_Herm L_Core L_Commuting L_Greedy1 L_Greedy2 L_Greedy3 L_Greedy4 L_Search L_Search2 L_Fidelity P_Fidelity L_Target.
Import ListNotations.
Local Open Scope nat_scope.

Section Target2.
  Variables (ty : optype) (H : Operator).
  Hypotheses (Hty : ty <> Fermion) (HH : std_op ty H).
  Variables (Or : groracles) (p : gparams).
  Hypotheses (Heig : real_solver (gr_eig Or)) (Hort : orthonormal_solver (gr_eig Or)) (Hlow : finds_lowest (gr_eig Or)) (Hsort : sorts_reals (gr_sort Or))
    (Hpt : gp_trans p = None) (Hpo : gp_orth p = None).
  Variables (fuel : nat) (init tgt : COp) (tf : option R).
  Hypotheses (Htgt : std_cop ty tgt) (Rtgt : real_vec (c_coeffs tgt)).

  Lemma too_low_iff f : too_low tf f = true <-> below_target tf f.
  Proof.
    unfold too_low, below_target. destruct tf as [m|]; [|split; [discriminate | intros (m & F & _); discriminate]]. rewrite lt_dec_true.
    split; [eauto | intros (m' & E & L); injection E as <-; auto].
  Qed.
  Lemma improves_iff e b : (0 <= e)%R -> improves e b = true <-> new_best b e.
  Proof. intros E0. destruct b as [b|]; cbn; [|tauto]. rewrite Rabs_right by lra. apply lt_dec_true. Qed.

  Lemma target_step_search step ts ts' counted : tstate_ok ty H init step (t_g ts) -> aligned (t_g ts) -> target_step Or p fuel H [H] tgt tf step ts = Ok (ts', counted) ->
    let st := t_g ts in let st' := t_g ts' in aligned st' /\
    if counted : bool then exists o e f nH size kept thr' w,
      g_ops st' = g_ops st ++ [o] /\ g_norms st' = g_norms st ++ [e] /\
      nth_error (gp_nH p) step = Some nH /\ grown ty H nH (gp_nO p) (c_terms (g_op st)) (b_strings (c_basis o)) /\
      fidelity (match step with 0 => tgt | _ => g_best st end) o f /\ (step <> 0 -> ~ below_target tf f) /\
      nth_error (gp_sizes p) step = Some size /\ (gets_worse (g_bestn st) e -> thr' = (g_thr st / 2)%R) /\ (~ gets_worse (g_bestn st) e -> thr' = g_thr st) /\
      (new_best (g_bestn st) e -> g_best st' = o) /\ (~ new_best (g_bestn st) e -> g_best st' = g_best st) /\
      least_commuting ty H (b_strings (c_basis o)) w /\
      picks size (fun t => (thr' < Cmod (fst t))%R) (combine w (b_strings (c_basis o))) kept /\ g_thr st' = thr' /\
      c_terms (g_op st') = combine (firstn (length kept) (c_coeffs o)) (map snd kept) /\ g_bestn st' = least_so_far (g_bestn st) e /\
      (g_end st' = true <-> below_target tf f \/ stops (gp_target p) (gp_minrel p) step (g_bestn st) e)
    else g_basis st' = g_basis st /\ g_op st' = g_op st /\ g_best st' = g_best st /\ g_bestn st' = g_bestn st /\ g_thr st' = g_thr st /\ g_end st' = g_end st.
  Proof.
    intros Hst [Al1 Al2] E. cbv zeta. pose proof Hst as [(Hb & Ho & Hc & HF & HB) Ln]. unfold target_step in E. set (st := t_g ts) in *. cbv zeta in E.
    destruct (nth_error (gp_nH p) step) as [nH|] eqn:EnH; [|discriminate]. cbn [of_option rbind] in E.
    destruct (grow_commutators Or H [H] nH (g_basis st) (g_op st) (g_cache st)) as [[b1 x1]|] eqn:E1; [|discriminate]. cbn [rbind] in E.
    destruct (grow_commutators_ok ty H [] Hty HH (fun o F => match F with end) _ _ _ _ _ _ _ Hb Hc E1) as [Hb1 Hc1].
    destruct (grow_commutators_spec ty H Hty HH _ _ _ _ _ _ _ Hsort Hb Hc Al1 Al2 E1) as (t1 & a & t2 & new & G1 & G2 & G3 & G4 & G5).
    destruct (grow_anticommutators Or (gp_nO p) (g_op st) b1) as [b2|] eqn:E2; [|discriminate]. cbn [rbind] in E.
    pose proof (grow_anticommutators_ok ty Hty _ _ _ _ _ Ho Hb1 E2) as Hb2. rewrite Hpt in E. cbn [rbind] in E.
    assert (ND : NoDup (b_strings (c_basis (g_op st)))) by (rewrite Al1; apply (std_nodup ty); auto).
    assert (LB : length (c_coeffs (g_op st)) = basis_len (c_basis (g_op st))) by (unfold basis_len in *; rewrite Al1; auto).
    destruct (grow_anticommutators_spec ty Hty _ _ _ _ _ Hsort Ho ND LB Hb1 E2) as (n1 & n2 & A1 & A2 & A3).
    destruct (find_vectors Or (with_vecs p (t_vecs ts)) [H] b2 x1) as [[qs x2]|] eqn:E3; [|discriminate]. cbn [rbind] in E.
    destruct (find_vectors_eig ty H Hty HH Or p Heig Hort Hsort Hpt Hpo _ _ _ _ _ Hc1 Hb2 E3) as (D & Hc2 & SD & LD & OQ & KQ & NO & _).
    destruct (find_vectors_ok ty H [] Hty HH (fun o F => match F with end) Or (with_vecs p (t_vecs ts)) Heig Hpt _ _ _ _ Hc1 Hb2 E3) as (_ & HV & HM).
    specialize (HM eq_refl Hpo Hlow Hsort).
    set (T := if step =? 0 then tgt else g_best st) in *.
    assert (HT : std_cop ty T /\ real_vec (c_coeffs T)). { unfold T. destruct (Nat.eqb_spec step 0); [auto|]. eapply best_real; eauto. }
    destruct HT as [HT RT].
    destruct (highest_fidelity_operator T qs b2) as [[r f]|] eqn:E4; [|discriminate]. cbn [rbind] in E.
    destruct (too_low tf f && negb (step =? 0)) eqn:El.
    { injection E as <- <-. cbn [t_g g_basis g_op g_best g_bestn g_thr g_end]. split; [split; auto|]. do 5 (split; [auto|]). auto. }
    destruct r as [[v e]|]; [|discriminate]. cbn [of_option rbind] in E.
    assert (VQ : vectors (basis_len b2) (map snd qs)). { intros u Hu. apply in_map_iff in Hu. destruct Hu as (q & <- & Hq). apply KQ; auto. }
    destruct (C102_fidelity ty T qs b2 HT Hb2 VQ OQ) as (t & r' & f' & Ct & E4' & _ & Hr). rewrite E4 in E4'. injection E4' as <- <-.
    destruct Hr as (Pf & (Sv & Nv & _) & Of & Tv & Ev).
    assert (Lv : length v = basis_len b2) by exact (span_length _ _ _ VQ Sv).
    assert (Rv : real_vec v).
    { destruct (hf_vector ty T qs b2 v e f HT Hb2 E4) as (t3 & c & Ct2 & ->). apply real_vscale; auto. apply fidw_real; [apply (coefficients_real ty T b2); auto | intros q Hq; apply KQ; auto |].
      intros z Hz. apply repeat_spec in Hz. subst. reflexivity. }
    assert (Ee : expectation D v = e).
    { unfold expectation. rewrite vdot_inner, (Ev D LD); auto. intros q Hq. destruct (KQ q Hq) as (Q1 & _ & _ & Q4). auto. }
    destruct (cop_new v (b_strings b2) None) as [o|] eqn:E5; [|discriminate]. cbn [rbind] in E.
    pose proof (proj2 (proj1 (std_basis_ok ty b2) Hb2)) as Hs2.
    destruct (cop_new_std ty _ _ _ _ Hs2 E5) as (O1 & O2 & O3).
    destruct (nth_error (gp_sizes p) step) as [size|] eqn:Esz; [|discriminate]. cbn [of_option rbind] in E.
    destruct (nth_error qs 0) as [[e0 v0]|] eqn:E8; [|discriminate]. cbn [of_option rbind] in E.
    destruct qs as [|q0 qs]; [discriminate|]. cbn in E8. injection E8 as ->.
    destruct (HV (e0, v0) (or_introl eq_refl)) as (V1 & V2 & V3 & V4). pose proof (HM (e0, v0) qs eq_refl) as V5. unfold min_ok in V5. cbn [fst snd] in *.
    set (thr' := if worse e (g_bestn st) then (g_thr st / 2)%R else g_thr st) in *.
    destruct (gtruncate Or b2 v0 thr' size) as [b4|] eqn:E6; [|discriminate]. cbn [rbind] in E.
    destruct (gtruncate_spec ty Or Hsort _ _ _ _ _ Hb2 V1 E6) as (Hb4 & kept & K1 & K2).
    match type of E with context [rbind ?a _] => destruct a as [cs|] eqn:E9; [|discriminate] end. cbn [rbind] in E.
    destruct (own_coefficients ty b4 v Hb4 _ E9) as [Cs1 Cs2].
    destruct (cop_new cs (b_strings b4) None) as [o'|] eqn:E7; [|discriminate]. cbn [rbind] in E. injection E as <- <-.
    pose proof (proj2 (proj1 (std_basis_ok ty b4) Hb4)) as Hs4. destruct (cop_new_std ty _ _ _ _ Hs4 E7) as (P1 & P2 & _).
    assert (NOo : commutator_norm ty H o e). { rewrite <- Ee, <- O1. apply NO; auto; rewrite O1; auto. }
    assert (E0 : (0 <= e)%R). { destruct NOo as (D' & w & _ & _ & <- & _). rewrite <- sqsum_norm2c. apply sqsum_nonneg. }
    cbn [t_g g_op g_basis g_ops g_norms g_thr g_best g_bestn g_end]. split; [split; cbn [g_op g_basis]; [auto | rewrite P1; auto]|].
    exists o, e, f, nH, size, kept, thr', v0. do 3 (split; [auto|]). split.
    { exists t1, a, t2, new, n1, n2. assert (Es : map snd (c_terms (g_op st)) = b_strings (g_basis st)) by (unfold c_terms; rewrite Al1; apply map_snd_combine; exact Al2).
      rewrite Es, <- G5 in *. do 4 (split; [auto|]). split; [auto|]. split; [auto|]. rewrite O2. auto. }
    split.
    { exists t. split; [|rewrite O1; exact Of]. replace (match step with 0 => tgt | S _ => g_best st end) with T by (unfold T; destruct step; auto).
      destruct Ct as [C1 C2]. split; [rewrite C1; unfold basis_len; rewrite O2; auto|]. rewrite O2. exact C2. }
    split. { intros Ns Lw. apply too_low_iff in Lw. rewrite Lw in El. apply Nat.eqb_neq in Ns. rewrite Ns in El. discriminate. }
    split; [auto|]. split; [intros W; apply worse_iff in W; unfold thr'; rewrite W; auto|].
    split; [intros W; unfold thr'; destruct (worse e (g_bestn st)) eqn:Ew; auto; exfalso; apply W, worse_iff; auto|].
    split; [intros W; apply improves_iff in W; auto; rewrite W; auto|].
    split; [intros W; destruct (improves e (g_bestn st)) eqn:Ew; auto; exfalso; apply W, improves_iff; auto|].
    split.
    { rewrite O2. split; [exact V1|]. split; [auto|]. split; [auto|]. intros ow q dw d W1 W2 W3 W4 W5 W6 W7 W8.
      destruct (V5 q) as (d' & W9 & W10); auto. rewrite W6, Rmult_1_r in W10.
      rewrite (commutator_norm_unique ty Hty H ow dw e0 W7 (V4 ow W1 W2)), (commutator_norm_unique ty Hty H q d d' W8 W9). exact W10. }
    split; [rewrite O2; auto|]. split; [auto|]. split.
    { unfold c_terms. rewrite P1, P2, Cs1, O1, K2. unfold basis_len. rewrite K2, map_length. auto. }
    rewrite (best_least e (g_bestn st) E0). split; auto.
    rewrite !orb_true_iff, too_low_iff. unfold stops. split.
    - intros [[W|W]|W]; [left; auto|right; left|right; right].
      + destruct (gp_minrel p) as [m|]; [|discriminate]. apply andb_true_iff in W. destruct W as [W1 W2]. assert (W3 : 1 <= step) by (apply Nat.leb_le; exact W1). apply orb_true_iff in W2. rewrite worse_iff, slow_iff in W2. eauto.
      + destruct (gp_target p) as [u|]; [|discriminate]. destruct (least_so_far (g_bestn st) e) as [d|]; [|discriminate]. apply lt_dec_true in W. eauto.
    - intros [W|[(m & -> & W1 & W2)|(u & d & -> & -> & W)]]; [left; left; auto|left; right|right; apply lt_dec_true; auto].
      apply andb_true_iff. rewrite orb_true_iff, worse_iff, slow_iff. split; auto. destruct step; [lia | auto].
  Qed.

  Lemma target_loop_search : forall k n step ts st', tstate_ok ty H init step (t_g ts) -> aligned (t_g ts) -> g_end (t_g ts) = false -> step <= n ->
    target_loop Or p fuel H [H] tgt tf k n step ts = Ok (Some st') ->
    exists ops norms, g_ops st' = g_ops (t_g ts) ++ ops /\ g_norms st' = g_norms (t_g ts) ++ norms /\
      target_search ty H (gp_nH p) (gp_sizes p) (gp_nO p) (gp_target p) (gp_minrel p) tgt tf n step (c_terms (g_op (t_g ts))) (g_thr (t_g ts)) (g_best (t_g ts)) (g_bestn (t_g ts)) ops norms.
  Proof.
    induction k as [|k IH]; intros n step ts st' Hst Al Ee Ls E; cbn [target_loop] in E; rewrite Ee, orb_false_r in E.
    - destruct (Nat.leb_spec n step) as [L|L]; [|discriminate]. injection E as <-. exists [], []. rewrite !app_nil_r. split; auto. split; auto. cbn. lia.
    - destruct (Nat.leb_spec n step) as [L|L]. { injection E as <-. exists [], []. rewrite !app_nil_r. split; auto. split; auto. cbn. lia. }
      destruct (target_step Or p fuel H [H] tgt tf step ts) as [[ts1 c]|] eqn:Es; [|discriminate]. cbn [rbind] in E.
      pose proof (target_step_ok ty H Hty HH Or p Heig Hort Hsort Hpt Hpo fuel init tgt tf Htgt Rtgt _ _ _ _ Hst Es) as K.
      destruct (target_step_search _ _ _ _ Hst Al Es) as (Al1 & G). destruct c.
      + destruct K as (Hst1 & _). destruct G as (o & e & f & nH & size & kept & thr' & w & G1 & G2 & G3 & G4 & G5 & G6 & G7 & G8 & G9 & G10 & G11 & G12 & G13 & G14 & G15 & G16 & G17).
        destruct (g_end (t_g ts1)) eqn:Ee1.
        * assert (st' = t_g ts1). { destruct k; cbn [target_loop] in E; rewrite Ee1, orb_true_r in E; congruence. } subst st'.
          exists [o], [e]. split; auto. split; auto. cbn [target_search]. split; [eauto|]. exists f. split; auto. split; auto. left. split; auto. split; auto.
          destruct (proj1 G17 eq_refl); auto.
        * destruct (IH n (S step) ts1 st' Hst1 Al1 Ee1 L E) as (ops & norms & K1 & K2 & K3). exists (o :: ops), (e :: norms). rewrite K1, K2, G1, G2, <- !app_assoc. split; auto. split; auto.
          cbn [target_search]. split; [eauto|]. exists f. split; auto. split; auto.
          destruct (Nat.eq_dec n (S step)) as [->|Nn].
          { left. destruct ops as [|o1 ops], norms as [|e1 norms]; [tauto|destruct K3|destruct K3|]. exfalso.
            cbn [target_search] in K3. destruct K3 as (_ & f1 & _ & _ & [(_ & _ & Q)|(_ & _ & Q & _)]); [|lia].
            destruct k; cbn [target_loop] in E; rewrite Nat.leb_refl in E; injection E as <-; rewrite <- (app_nil_r (g_ops (t_g ts1))) in K1 at 1; apply app_inv_head in K1; discriminate. }
          right. assert (NS : ~ (below_target tf f \/ stops (gp_target p) (gp_minrel p) step (g_bestn (t_g ts)) e)) by (intros F; apply G17 in F; congruence).
          split; [tauto|]. split; [tauto|]. split; [lia|]. exists size, thr', w, kept, (g_best (t_g ts1)). do 7 (split; [auto|]). rewrite <- G15, <- G16, <- G14. exact K3.
      + destruct K as (Hst1 & G1 & G2 & _). destruct G as (B1 & B2 & B3 & B4 & B5 & B6).
        destruct (IH n step ts1 st' Hst1 Al1 ltac:(congruence) Ls E) as (ops & norms & K). exists ops, norms. rewrite <- G1, <- G2, <- B2, <- B3, <- B4, <- B5. auto.
  Qed.
End Target2.
