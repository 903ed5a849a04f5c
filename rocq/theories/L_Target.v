(** Proofs about the option target_operator of selected_ci_greedy. *)
From Coq Require Import String List ZArith Bool Arith Lia Permutation Reals QArith Qreals Qcanon Lra.
From Coquelicot Require Import Complex.
From Verif Require Import GC Exn M_OpString M_Tools M_Algebra M_Basis M_OpAlg M_Transform M_LinAlg M_Explore M_Core M_Greedy M_Target
  S_Alg S_Den S_Basis S_Built S_OpAlg S_Explore S_RScal S_CScal S_LinAlg S_Core S_Greedy S_Fidelity S_Target
  L_Alg L_Basis L_PropBasis L_Explore L_Explore2 L_Explore3 L_Explore4
  L_CScal L_LinAlg L_Inter L_Herm L_Core L_Commuting L_Greedy1 L_Greedy2 L_Greedy3 L_Greedy4 L_Search L_Fidelity P_Fidelity.
Import ListNotations.
Local Open Scope nat_scope.
Local Open Scope alg_scope.

Lemma take_nth_error {T} (l : list T) inds r : take l inds = Ok r -> forall i x, nth_error r i = Some x -> exists j, nth_error inds i = Some j /\ nth_error l j = Some x.
Proof.
  unfold take. revert r. induction inds as [|k inds IH]; intros r E i x Hi; cbn [rmap] in E; [injection E as <-; destruct i; discriminate|].
  destruct (nth_error l k) as [y|] eqn:Ek; [|discriminate]. cbn [of_option rbind] in E. destruct (rmap _ inds) as [r'|]; [|discriminate]. cbn [rbind] in E. injection E as <-.
  destruct i as [|i]; cbn in Hi; [injection Hi as <-; exists k; auto|]. apply (IH r' eq_refl i x Hi).
Qed.
Lemma take_orthonormal (ps qs : list (R * vec)) inds : NoDup inds -> take ps inds = Ok qs -> orthonormal (map snd ps) -> orthonormal (map snd qs).
Proof.
  intros Nd E [O1 O2]. split.
  - intros v Hv. apply O1. apply in_map_iff in Hv. destruct Hv as (q & <- & Hq). apply in_map. eapply take_in; eauto.
  - intros i j u v Hi Hj Nij. rewrite nth_error_map in Hi, Hj. destruct (nth_error qs i) as [q|] eqn:Ei; [|discriminate]. destruct (nth_error qs j) as [q'|] eqn:Ej; [|discriminate].
    cbn in Hi, Hj. injection Hi as <-. injection Hj as <-.
    destruct (take_nth_error _ _ _ E _ _ Ei) as (a & A1 & A2). destruct (take_nth_error _ _ _ E _ _ Ej) as (b & B1 & B2).
    apply (O2 a b); [rewrite nth_error_map, A2; auto|rewrite nth_error_map, B2; auto|].
    intros ->. apply Nij. apply (proj1 (NoDup_nth_error inds) Nd); [apply nth_error_Some; congruence | congruence].
Qed.
Lemma real_inner2 u v : real_vec u -> real_vec v -> snd (inner u v) = 0%R.
Proof.
  revert v. induction u as [|x u IH]; intros [|y v] Hu Hv; cbn [inner]; auto.
  assert (E : snd (inner u v) = 0%R) by (apply IH; [intros z Hz; apply Hu | intros z Hz; apply Hv]; right; auto). cbn. rewrite E. rewrite (Hu x), (Hv y) by (left; auto). ring.
Qed.
Lemma real_vscale c v : snd c = 0%R -> real_vec v -> real_vec (vscale c v).
Proof. intros Hc Hv z Hz. apply in_map_iff in Hz. destruct Hz as (y & <- & Hy). cbn. rewrite Hc, (Hv y Hy). ring. Qed.
Lemma real_vadd u v : real_vec u -> real_vec v -> real_vec (vadd u v).
Proof.
  revert v. induction u as [|x u IH]; intros [|y v] Hu Hv z Hz; cbn in Hz; try destruct Hz as [<-|Hz]; try contradiction.
  - cbn. rewrite (Hu x), (Hv y) by (left; auto). ring.
  - apply (IH v); auto; [intros w Hw; apply Hu | intros w Hw; apply Hv]; right; auto.
Qed.
Lemma fidw_real t : real_vec t -> forall ps w, (forall q, In q ps -> real_vec (snd q)) -> real_vec w -> real_vec (fidw t ps w).
Proof.
  intros Ht. induction ps as [|q ps IH]; intros w Hq Hw; auto. cbn [fidw fold_left]. apply IH; [intros; apply Hq; right; auto|].
  apply real_vadd; auto. apply real_vscale; [apply real_inner2; auto; apply Hq; left; auto | apply Hq; left; auto].
Qed.
Lemma coefficients_real ty o b t : std_cop ty o -> std_basis ty b -> real_vec (c_coeffs o) -> coefficients_in o b t -> real_vec t.
Proof.
  intros [(Tb & Tl & _) Ts] [_ Bs] Ho [L Hc] z Hz. apply In_nth_error in Hz. destruct Hz as (i & Hi).
  assert (Li : i < length (b_strings b)) by (change (i < basis_len b); rewrite <- L; apply nth_error_Some; congruence).
  destruct (nth_error (b_strings b) i) as [s|] eqn:Es; [|apply nth_error_None in Es; lia].
  destruct (Hc i s z Es Hi) as [H1 H2]. assert (Ss : std s) by (apply Bs; eapply nth_error_In; eauto).
  pose proof (mem_std (c_basis o) s (built_ok _ Tb) Ss Ts) as M. destruct (basis_mem (c_basis o) s).
  - assert (Hin : In s (b_strings (c_basis o))) by (apply M; auto). apply In_nth_error in Hin. destruct Hin as (k & Hk).
    assert (Lk : k < length (c_coeffs o)) by (rewrite Tl; apply nth_error_Some; congruence).
    destruct (nth_error (c_coeffs o) k) as [c|] eqn:Ec; [|apply nth_error_None in Ec; lia].
    rewrite (H1 c); [apply Ho; eapply nth_error_In; eauto|]. apply (nth_error_In _ k). unfold c_terms. apply nth_combine; auto.
  - rewrite H2; auto. intros Hin. apply in_map_iff in Hin. destruct Hin as ((c & u) & Eu & Hin). cbn in Eu. subst u. apply in_combine_r in Hin. apply M in Hin. discriminate.
Qed.

Lemma hf_vector ty target ps b v e f : std_cop ty target -> std_basis ty b -> highest_fidelity_operator target ps b = Ok (Some (v, e), f) ->
  exists t c, coefficients_in target b t /\ v = vscale (RtoC c) (fidw t ps (vzero (basis_len b))).
Proof.
  intros Ht Hb E. destruct (target_vector ty target b Ht Hb) as (ts & Ets & Ct). unfold highest_fidelity_operator in E. rewrite Ets in E. cbn [rbind] in E. cbv zeta in E.
  set (t := fold_left (fun v p => list_set v (fst p) (snd p)) ts (vzero (basis_len b))) in *.
  set (w := fold_left (fun w q => vadd w (vscale (vdot (snd q) t) (snd q))) ps (vzero (basis_len b))) in *.
  destruct (Req_EM_T (vnorm w) 0); [discriminate|]. injection E as <- _ _. exists t, (/ vnorm w)%R. split; auto. f_equal.
  unfold w, fidw. generalize (vzero (basis_len b)). clear. induction ps as [|q ps IH]; intros a; auto. cbn [fold_left]. rewrite vdot_inner. apply IH.
Qed.

Section Target.
  Variables (ty : optype) (H : Operator).
  Hypotheses (Hty : ty <> Fermion) (HH : std_op ty H).
  Notation cok := (cache_ok ty (b_strings (o_basis H))).
  Variables (Or : groracles) (p : gparams).
  Hypotheses (Heig : real_solver (gr_eig Or)) (Hort : orthonormal_solver (gr_eig Or)) (Hsort : sorts_reals (gr_sort Or))
    (Hpt : gp_trans p = None) (Hpo : gp_orth p = None).

  Lemma find_vectors_eig k b x qs x' : cok x -> std_basis ty b -> find_vectors Or (with_vecs p k) [H] b x = Ok (qs, x') ->
    exists D, cok x' /\ real_symmetric D /\ length D = basis_len b /\ orthonormal (map snd qs) /\
    (forall q, In q qs -> (0 <= fst q)%R /\ length (snd q) = basis_len b /\ real_vec (snd q) /\ rows_vec D (snd q) = map (Cmult (RtoC (fst q))) (snd q)) /\
    (forall o, length (c_coeffs o) = basis_len b -> real_vec (c_coeffs o) -> b_strings (c_basis o) = b_strings b -> commutator_norm ty H o (expectation D (c_coeffs o))) /\
    (basis_len b < 20 -> qs = gr_eig Or None D).
  Proof.
    intros Hc Hb E. unfold find_vectors in E. set (n := basis_len b) in *. cbn [rfold] in E.
    destruct (com_step b (rzero n, None, x) H) as [acc|] eqn:Es; [|discriminate]. cbn [rbind] in E.
    unfold com_step in Es. destruct (explore b H x None) as [[[L ext] x1]|] eqn:Ex; [|discriminate]. cbn [rbind] in Es. injection Es as <-.
    destruct (explore_main ty H Hty HH _ _ _ _ _ Hc Hb Ex) as (Hc1 & Hin & HC & R1 & R2 & D).
    set (cols := dense_cols L) in *. set (DH := rreal (gram cols)) in *.
    assert (Vc : vectors (basis_len ext) cols) by (rewrite <- R1; apply dense_cols_vectors).
    assert (Lc : length cols = n) by (unfold cols; rewrite dense_cols_length; auto).
    pose proof (eq_ind _ (fun k => hermi k (gram cols)) (hermi_gram _ _ Vc) _ Lc) as HG.
    assert (SD : real_symmetric DH) by exact (rreal_symmetric _ _ HG).
    assert (LD : length DH = n) by (unfold DH; rewrite rreal_length, gram_length; auto).
    assert (VD : vectors n DH) by (apply map_vectors; apply HG).
    rewrite radd_zero in E by auto. cbn [rbind] in E.
    cbn [with_vecs gp_orth gp_trans gp_vecs] in E. rewrite Hpo, Hpt in E. cbn [rbind] in E. change (1 <? length [H]) with false in E. cbn [orb] in E.
    match type of E with context [rbind ?a _] => destruct a as [ps|] eqn:Ep; [|discriminate] end. cbn [rbind] in E. injection E as -> <-.
    assert (KP : exists nv, (forall q, In q qs -> In q (gr_eig Or nv DH)) /\ orthonormal (map snd qs)).
    { destruct (_ || _); [injection Ep as <-; exists None; split; auto|]. exists (Some k). split; [apply (sort_pairs_in _ _ _ Ep)|].
      eapply take_orthonormal; [|exact Ep|apply Hort; auto].
      match goal with |- NoDup (gr_sort Or ?l) => destruct (Hsort l) as [Pm _]; apply (Permutation_NoDup (Permutation_sym Pm)), seq_NoDup end. }
    destruct KP as (nv & KI & KO).
    exists DH. split; [auto|]. split; [auto|]. split; [auto|]. split; [auto|]. split; [|split].
    - intros [l v] Hq. destruct (Heig _ _ _ _ SD (KI _ Hq)) as (K1 & K2 & K3 & K4). cbn [fst snd].
      split; [|split; [exact (eq_trans K1 LD)|split; auto]]. rewrite <- (expectation_eigen DH l v K4 K3). unfold DH.
      rewrite (expectation_gram (basis_len ext)); auto; [|exact (eq_trans K1 (eq_trans LD (eq_sym Lc)))]. rewrite <- sqsum_norm2c. apply sqsum_nonneg.
    - intros o Lo Ro Eb. exists ext, (mat_vec (basis_len ext) cols (c_coeffs o)). split; auto. split; [apply mat_vec_length; auto|].
      split; [symmetry; apply expectation_gram; auto; exact (eq_trans Lo (eq_sym Lc))|]. intros A Sc g Hr. unfold c_terms. rewrite Eb. apply D; auto.
    - intros L20. apply Nat.ltb_lt in L20. rewrite L20 in Ep. cbn [orb] in Ep. injection Ep as ->. reflexivity.
  Qed.

  Variables (fuel : nat) (init tgt : COp) (tf : option R).
  Hypotheses (Htgt : std_cop ty tgt) (Rtgt : real_vec (c_coeffs tgt)).
  Definition tstate_ok (step : nat) (st : gstate) : Prop := state_ok ty H init st /\ length (g_ops st) = step.
  Definition follows (T o : COp) : Prop := complete_solver (gr_eig Or) -> basis_len (c_basis o) < 20 -> normalised_part T o.

  Lemma best_real step st : tstate_ok step st -> step <> 0 -> std_cop ty (g_best st) /\ real_vec (c_coeffs (g_best st)).
  Proof.
    intros [(_ & _ & _ & HF & HB) L] Ns. unfold best_of in HB. destruct (g_bestn st) as [e|].
    - destruct HB as (i & N1 & N2 & _). assert (R : rec_ok ty H (g_best st) e).
      { clear - HF N1 N2. revert i N1 N2. induction HF as [|a b l m R F IH]; intros [|i] N1 N2; try discriminate; [injection N1 as <-; injection N2 as <-; auto | eapply IH; eauto]. }
      split; apply R.
    - destruct HB as [E _]. rewrite E in L. cbn in L. congruence.
  Qed.

  Lemma target_step_ok step ts ts' counted : tstate_ok step (t_g ts) -> target_step Or p fuel H [H] tgt tf step ts = Ok (ts', counted) ->
    if counted : bool then tstate_ok (S step) (t_g ts') /\ exists o e, g_ops (t_g ts') = g_ops (t_g ts) ++ [o] /\ g_norms (t_g ts') = g_norms (t_g ts) ++ [e] /\
      follows (if step =? 0 then tgt else g_best (t_g ts)) o
    else tstate_ok step (t_g ts') /\ g_ops (t_g ts') = g_ops (t_g ts) /\ g_norms (t_g ts') = g_norms (t_g ts) /\ tf <> None.
  Proof.
    intros Hst E. pose proof Hst as [(Hb & Ho & Hc & HF & HB) Ln]. unfold target_step in E. set (st := t_g ts) in *. cbv zeta in E.
    destruct (of_option IndexError (nth_error (gp_nH p) step)) as [nH|]; [|discriminate]. cbn [rbind] in E.
    destruct (grow_commutators Or H [H] nH (g_basis st) (g_op st) (g_cache st)) as [[b1 x1]|] eqn:E1; [|discriminate]. cbn [rbind] in E.
    destruct (grow_commutators_ok ty H [] Hty HH (fun o F => match F with end) _ _ _ _ _ _ _ Hb Hc E1) as [Hb1 Hc1].
    destruct (grow_anticommutators Or (gp_nO p) (g_op st) b1) as [b2|] eqn:E2; [|discriminate]. cbn [rbind] in E.
    pose proof (grow_anticommutators_ok ty Hty _ _ _ _ _ Ho Hb1 E2) as Hb2. rewrite Hpt in E. cbn [rbind] in E.
    destruct (find_vectors Or (with_vecs p (t_vecs ts)) [H] b2 x1) as [[qs x2]|] eqn:E3; [|discriminate]. cbn [rbind] in E.
    destruct (find_vectors_eig _ _ _ _ _ Hc1 Hb2 E3) as (D & Hc2 & SD & LD & OQ & KQ & NO & Dn).
    set (T := if step =? 0 then tgt else g_best st) in *.
    assert (HT : std_cop ty T /\ real_vec (c_coeffs T)). { unfold T. destruct (Nat.eqb_spec step 0); [auto|]. eapply best_real; eauto. }
    destruct HT as [HT RT].
    destruct (highest_fidelity_operator T qs b2) as [[r f]|] eqn:E4; [|discriminate]. cbn [rbind] in E.
    destruct (too_low tf f && negb (step =? 0)) eqn:El.
    { injection E as <- <-. cbn [t_g g_ops g_norms]. split; [split; [do 4 (split; [auto|]); auto|auto]|]. split; [auto|]. split; auto.
      intros F. rewrite F in El. discriminate. }
    destruct r as [[v e]|]; [|discriminate]. cbn [of_option rbind] in E.
    assert (VQ : vectors (basis_len b2) (map snd qs)). { intros u Hu. apply in_map_iff in Hu. destruct Hu as (q & <- & Hq). apply KQ; auto. }
    destruct (C102_fidelity ty T qs b2 HT Hb2 VQ OQ) as (t & r' & f' & Ct & E4' & _ & Hr). rewrite E4 in E4'. injection E4' as <- <-.
    destruct Hr as (Pf & (Sv & Nv & _) & _ & Tv & Ev).
    assert (Lv : length v = basis_len b2) by exact (span_length _ _ _ VQ Sv).
    assert (Rv : real_vec v).
    { destruct (hf_vector ty T qs b2 v e f HT Hb2 E4) as (t2 & c & Ct2 & ->). apply real_vscale; auto. apply fidw_real; [apply (coefficients_real ty T b2); auto | intros q Hq; apply KQ; auto |].
      intros z Hz. apply repeat_spec in Hz. subst. reflexivity. }
    assert (Ee : expectation D v = e).
    { unfold expectation. rewrite vdot_inner, (Ev D LD); auto. intros q Hq. destruct (KQ q Hq) as (Q1 & _ & _ & Q4). auto. }
    destruct (cop_new v (b_strings b2) None) as [o|] eqn:E5; [|discriminate]. cbn [rbind] in E.
    pose proof (proj2 (proj1 (std_basis_ok ty b2) Hb2)) as Hs2.
    destruct (cop_new_std ty _ _ _ _ Hs2 E5) as (O1 & O2 & O3).
    destruct (of_option IndexError (nth_error (gp_sizes p) step)) as [size|]; [|discriminate]. cbn [rbind] in E.
    destruct (nth_error qs 0) as [[e0 v0]|] eqn:E8; [|discriminate]. cbn [of_option rbind] in E.
    match type of E with context [gtruncate Or b2 v0 ?t size] => destruct (gtruncate Or b2 v0 t size) as [b4|] eqn:E6; [|discriminate] end. cbn [rbind] in E.
    match type of E with context [rbind ?a _] => destruct a as [cs|]; [|discriminate] end. cbn [rbind] in E.
    destruct (cop_new cs (b_strings b4) None) as [o'|] eqn:E7; [|discriminate]. cbn [rbind] in E. injection E as <- <-.
    assert (Hb4 : std_basis ty b4).
    { unfold gtruncate in E6. destruct (rmap _ _); [|discriminate]. cbn [rbind] in E6. match type of E6 with context [take ?a ?i] => destruct (take a i) as [ls|] eqn:Et; [|discriminate] end.
      cbn [rbind] in E6. apply (std_new ty ls); auto. intros s Hs. apply Hs2. eapply take_in; eauto. }
    pose proof (proj2 (proj1 (std_basis_ok ty b4) Hb4)) as Hs4. destruct (cop_new_std ty _ _ _ _ Hs4 E7) as (_ & P2 & _).
    assert (RO : rec_ok ty H o e).
    { assert (NE : b_strings b2 <> []). { intros F. unfold basis_len in Lv. rewrite F in Lv. destruct v; [|discriminate]. cbn in Nv. lra. }
      split; [apply O3; auto|]. rewrite O1. split; auto. split; auto. rewrite <- Ee, <- O1. apply NO; auto; rewrite O1; auto. }
    cbn [t_g]. split.
    - split; [|cbn [g_ops]; rewrite app_length; cbn; lia]. split; auto. split; [cbn [g_op]; rewrite P2; auto|]. split; auto. split.
      + cbn [g_ops g_norms]. apply Forall2_app; auto.
      + cbn [g_ops g_norms g_best g_bestn]. apply best_step; auto; [clear - HF; induction HF; cbn; auto|].
        intros d Hd. assert (HF' : Forall2 (rec_ok ty H) (g_ops st ++ [o]) (g_norms st ++ [e])) by (apply Forall2_app; auto).
        clear - HF' Hd. induction HF' as [|a b l m R F IH]; [destruct Hd|]. destruct Hd as [<-|Hd]; auto. eapply rec_pos; eauto.
    - exists o, e. cbn [g_ops g_norms]. do 2 (split; [auto|]). intros Hcs L20.
      assert (Lb : basis_len (c_basis o) = basis_len b2) by (unfold basis_len; rewrite O2; auto). rewrite Lb in L20.
      exists t, (/ sqrt f)%R. split; [apply Rinv_0_lt_compat, sqrt_lt_R0; auto|]. split.
      + destruct Ct as [C1 C2]. split; [congruence|]. rewrite O2. exact C2.
      + rewrite O1. split; auto. apply Tv. rewrite (Dn L20), <- LD. apply Hcs; auto; [|rewrite LD; apply Ct]. rewrite <- (Dn L20). intros F. rewrite F in E8. discriminate.
  Qed.

  Lemma target_loop_ok : forall k n step ts st', tstate_ok step (t_g ts) -> target_loop Or p fuel H [H] tgt tf k n step ts = Ok (Some st') ->
    tstate_ok (length (g_ops st')) st' /\ exists ops norms, g_ops st' = g_ops (t_g ts) ++ ops /\ g_norms st' = g_norms (t_g ts) ++ norms /\ (step <= n -> step + length ops <= n) /\
    forall i o, nth_error ops i = Some o -> exists T, followed tgt init (g_ops st') (g_norms st') (step + i) T /\ follows T o.
  Proof.
    induction k as [|k IH]; intros n step ts st' Hst E; cbn [target_loop] in E.
    - destruct (_ || _); [|discriminate]. injection E as <-. split; [destruct Hst as [S1 S2]; split; auto|]. exists [], []. rewrite !app_nil_r. do 2 (split; [auto|]). split; [cbn; lia|]. intros [|i] o F; discriminate.
    - destruct (_ || _) eqn:Ee.
      { injection E as <-. split; [destruct Hst as [S1 S2]; split; auto|]. exists [], []. rewrite !app_nil_r. do 2 (split; [auto|]). split; [cbn; lia|]. intros [|i] o F; discriminate. }
      apply orb_false_iff in Ee. destruct Ee as [Ee _]. apply Nat.leb_gt in Ee.
      destruct (target_step Or p fuel H [H] tgt tf step ts) as [[ts1 c]|] eqn:Es; [|discriminate]. cbn [rbind] in E.
      pose proof (target_step_ok _ _ _ _ Hst Es) as K. destruct c.
      + destruct K as (Hst1 & o & e & G1 & G2 & G3). destruct (IH _ _ _ _ Hst1 E) as (S' & ops & norms & K1 & K2 & K3 & K4).
        split; auto. exists (o :: ops), (e :: norms). rewrite G1, <- app_assoc in K1. rewrite G2, <- app_assoc in K2. split; [auto|]. split; [auto|]. split; [cbn; lia|].
        intros [|i] q Hq; cbn in Hq.
        * injection Hq as <-. eexists. split; [|exact G3]. rewrite Nat.add_0_r. pose proof Hst as [Sok Ln]. unfold followed. destruct step as [|step]; auto. cbn [Nat.eqb].
          exists (g_bestn (t_g ts)). destruct Sok as (_ & _ & _ & HF & HB). rewrite K1, K2.
          assert (LN : length (g_norms (t_g ts)) = S step) by (rewrite <- Ln; symmetry; clear - HF; induction HF; cbn; auto).
          rewrite !firstn_app, Ln, LN, Nat.sub_diag, !firstn_O, !app_nil_r, <- Ln, firstn_all, Ln, <- LN, firstn_all. exact HB.
        * destruct (K4 i q Hq) as (T & F1 & F2). exists T. replace (step + S i)%nat with (S step + i)%nat by lia. auto.
      + destruct K as (Hst1 & G1 & G2 & _). destruct (IH _ _ _ _ Hst1 E) as (S' & ops & norms & K). split; auto. exists ops, norms. rewrite <- G1, <- G2. auto.
  Qed.
  Lemma target_loop_ends : tf = None -> forall k n step ts, tstate_ok step (t_g ts) -> n <= step + k -> target_loop Or p fuel H [H] tgt tf k n step ts <> Ok None.
  Proof.
    intros Etf. induction k as [|k IH]; intros n step ts Hst Hk E; cbn [target_loop] in E.
    - replace (n <=? step) with true in E by (symmetry; apply Nat.leb_le; lia). discriminate.
    - destruct (_ || _); [discriminate|]. destruct (target_step Or p fuel H [H] tgt tf step ts) as [[ts1 c]|] eqn:Es; [|discriminate]. cbn [rbind] in E.
      pose proof (target_step_ok _ _ _ _ Hst Es) as K. destruct c; [|destruct K as (_ & _ & _ & F); congruence]. apply (IH n (S step) ts1); auto; [apply K|lia].
  Qed.
End Target.
