(** Proofs about selected_ci_greedy: the norm of a commutator is unique, and the loop. *)
From Coq Require Import String List ZArith Bool Arith Lia Permutation Reals QArith Qreals Qcanon Lra.
From Coquelicot Require Import Complex.
From Verif Require Import GC Exn M_OpString M_Tools M_Algebra M_Basis M_OpAlg M_Transform M_LinAlg M_Explore M_Core M_Greedy
  S_Alg S_Den S_Basis S_Built S_OpAlg S_Explore S_RScal S_CFock S_CScal S_LinAlg S_Core S_Greedy
  L_Alg L_StrAlg L_StrOp L_Indep L_PropStr L_Basis L_Operator L_Heap L_PropBasis L_OpAlg L_Struct L_PropOpAlg L_Explore L_Explore2 L_Explore3 L_Explore4
  L_CScal L_CFock L_LinAlg L_Inter L_Herm L_Core L_Commuting L_Invariant L_Invariant2 L_Cumul2 L_Greedy1 L_Greedy2 L_Greedy3.
Import ListNotations.
Local Open Scope nat_scope.
Local Open Scope alg_scope.

Section Unique.
  Variable ty : optype.
  Hypothesis Hty : ty <> Fermion.
  Lemma some_rep : exists g : op -> Z -> CFock, rep ty g.
  Proof. destruct ty; [exists cgen; apply cfock_pauli | exists cgen; apply cfock_majorana | congruence]. Qed.

  Lemma coords_unique {A : StarAlg} (Sc : RScal A) g D : rep ty g -> ~ (@aone A == azero) -> canonical_basis ty D -> forall u v : vec, length u = basis_len D -> length v = basis_len D ->
    clincomb Sc g (combine u (b_strings D)) == clincomb Sc g (combine v (b_strings D)) -> u = v.
  Proof.
    intros Hr Hn HD u v Lu Lv E.
    assert (Z : clincomb Sc g (combine (vadd u (vscale (RtoC (-1)) v)) (b_strings D)) == azero).
    { rewrite clin_vadd by (unfold vec in *; rewrite vscale_length; congruence). rewrite clin_vscale, E. set (x := clincomb _ _ _).
      transitivity (cs Sc (RtoC 1) x + cs Sc (RtoC (-1)) x); [rewrite cs_1; reflexivity|]. rewrite <- cs_add_l.
      replace (RtoC 1 + RtoC (-1))%C with (RtoC 0) by (apply C_eq; cbn; lra). apply cs_0. }
    apply (ccanonical_zero Sc ty g Hr Hn) in Z; auto; [|apply vadd_length; [exact Lu | exact (eq_trans (vscale_length _ _) Lv)]].
    clear E HD Hr Hn. unfold vec in *. revert u v Lu Lv Z. generalize (basis_len D). clear.
    induction n as [|n IH]; intros [|a u] [|b v] Lu Lv Z; try discriminate; auto. cbn in Z. injection Z as Z1 Z2 Z3. f_equal.
    - destruct a, b. cbn in *. apply C_eq; cbn; lra.
    - apply (IH u v); cbn in *; try lia. exact Z3.
  Qed.
  Lemma colsum_meaning {A : StarAlg} (Sc : RScal A) g D : canonical_basis ty D -> forall ts, (forall t, In t ts -> In (snd t) (b_strings D)) ->
    clincomb Sc g (combine (colsum (b_strings D) ts) (b_strings D)) == clincomb Sc g ts.
  Proof.
    intros [HD Hok]. pose proof (distinct_NoDup _ (proj1 (built_ok _ HD))) as Hnd.
    induction ts as [|[c s] ts IH]; intros Hts; cbn [colsum fold_right fst snd]; [apply clin_vzero|]. fold (colsum (b_strings D) ts).
    assert (Hs : In s (b_strings D)) by (apply (Hts (c, s)); simpl; auto).
    rewrite clin_vadd by (rewrite colsum_length; apply map_length).
    rewrite (ind_meaning ty), clin_cons, IH by (auto; try (intros; apply Hts; simpl; auto); apply Hok; auto).
    replace (existsb (os_key s) (b_strings D)) with true; [reflexivity|]. symmetry. apply existsb_exists. exists s. split; auto. apply (key_eq ty); auto; apply Hok; auto.
  Qed.
  Lemma colsum_self D (w : vec) : canonical_basis ty D -> length w = basis_len D -> colsum (b_strings D) (combine w (b_strings D)) = w.
  Proof.
    intros HD Lw. destruct some_rep as [g Hr]. apply (coords_unique cfock_real g D Hr cfock_nontrivial HD); auto; [apply colsum_length|].
    apply colsum_meaning; auto. intros [c s] Ht. eapply in_combine_r; eauto.
  Qed.
  Lemma canonical_distinct D : canonical_basis ty D -> NoDup (b_strings D).
  Proof. intros [HD _]. apply distinct_NoDup, built_ok, HD. Qed.
  Lemma norm_merge D U (w : vec) : canonical_basis ty D -> canonical_basis ty U -> length w = basis_len D -> (forall s, In s (b_strings D) -> In s (b_strings U)) ->
    norm2c (colsum (b_strings U) (combine w (b_strings D))) = norm2c w.
  Proof.
    intros HD HU Lw Hin. rewrite <- (colsum_self D w HD Lw) at 2. rewrite <- !sqsum_norm2c. apply RtoC_inj. rewrite <- !inner_self.
    assert (T : forall t, In t (combine w (b_strings D)) -> In (snd t) (b_strings D)) by (intros [c s] Ht; eapply in_combine_r; eauto).
    rewrite (colsum_inner ty (b_strings U)), (colsum_inner ty (b_strings D)); auto; try (apply canonical_distinct; auto); try apply HD; try apply HU.
  Qed.
  Lemma coords_norm D1 D2 (w1 w2 : vec) : canonical_basis ty D1 -> canonical_basis ty D2 -> length w1 = basis_len D1 -> length w2 = basis_len D2 ->
    (forall g : op -> Z -> CFock, rep ty g -> clincomb cfock_real g (combine w1 (b_strings D1)) == clincomb cfock_real g (combine w2 (b_strings D2))) ->
    norm2c w1 = norm2c w2.
  Proof.
    intros H1 H2 L1 L2 E. destruct some_rep as [g Hr]. set (U := basis_iadd D1 D2).
    assert (HI : forall s, In s (b_strings U) <-> In s (b_strings D1) \/ In s (b_strings D2)).
    { intros s. destruct (basis_iadd_ok D1 D2 (built_ok _ (proj1 H1))) as [_ Ha]. fold U in Ha. split; [apply (append_new_in _ _ _ Ha)|].
      intros [Hs|Hs]; [eapply append_new_left; eauto|]. destruct (append_new_right _ _ _ Ha s Hs) as (t & Ht & K).
      assert (Hok : string_ok ty t) by (destruct (append_new_in _ _ _ Ha t Ht); [apply H1 | apply H2]; auto).
      apply os_key_spec in K. apply (key_eq ty) in K; auto; [congruence|]. apply H2; auto. }
    assert (HU : canonical_basis ty U).
    { split; [apply built_iadd; [apply H1 | apply H2]|]. intros s Hs. apply HI in Hs. destruct Hs; [apply H1 | apply H2]; auto. }
    rewrite <- (norm_merge D1 U w1), <- (norm_merge D2 U w2); auto; try (intros; apply HI; auto). f_equal.
    apply (coords_unique cfock_real g U Hr cfock_nontrivial HU); try apply colsum_length.
    rewrite !colsum_meaning; auto; intros [c s] Ht; apply HI; [right|left]; eapply in_combine_r; eauto.
  Qed.
  Lemma commutator_norm_unique H o d e : commutator_norm ty H o d -> commutator_norm ty H o e -> d = e.
  Proof.
    intros (D1 & w1 & C1 & L1 & N1 & E1) (D2 & w2 & C2 & L2 & N2 & E2). rewrite <- N1, <- N2. apply (coords_norm D1 D2); auto.
    intros g Hr. rewrite <- (E1 _ cfock_real g Hr). apply (E2 _ cfock_real g Hr).
  Qed.
End Unique.

Section Loop.
  Variables (ty : optype) (H : Operator) (rest : list Operator).
  Hypotheses (Hty : ty <> Fermion) (HH : std_op ty H) (Hrest : forall o, In o rest -> std_op ty o).
  Notation cok := (cache_ok ty (b_strings (o_basis H))).
  Variables (Or : groracles) (p : gparams) (fuel : nat) (init : COp).
  Hypotheses (Heig : real_solver (gr_eig Or)) (Hpt : gp_trans p = None).

  Definition rec_ok (o : COp) (e : R) : Prop :=
    std_cop ty o /\ real_vec (c_coeffs o) /\ norm2c (c_coeffs o) = 1%R /\ commutator_norm ty H o e.
  Definition least (o : COp) (e : R) : Prop :=
    forall q d, std_cop ty q -> b_strings (c_basis q) = b_strings (c_basis o) -> real_vec (c_coeffs q) -> commutator_norm ty H q d -> (e * norm2c (c_coeffs q) <= d)%R.
  Definition state_ok (st : gstate) : Prop :=
    std_basis ty (g_basis st) /\ std_list ty (b_strings (c_basis (g_op st))) /\ cok (g_cache st) /\ Forall2 rec_ok (g_ops st) (g_norms st) /\
    best_of init (g_ops st) (g_norms st) (g_best st) (g_bestn st).
  Definition exact_run : Prop := rest = [] /\ gp_orth p = None /\ finds_lowest (gr_eig Or) /\ sorts_reals (gr_sort Or).

  Lemma cop_new_std l cs b o : std_list ty l -> cop_new cs l b = Ok o -> c_coeffs o = cs /\ b_strings (c_basis o) = l /\ (l <> [] -> length cs = length l -> std_cop ty o).
  Proof.
    intros Hl E. unfold cop_new in E. destruct (basis_new l) as [c|] eqn:Eb; [|discriminate]. cbn [rbind] in E.
    destruct (basis_new_ok _ _ Eb) as [Es _]. rewrite Es in E. destruct l as [|s l].
    - destruct b; [|discriminate]. injection E as <-. cbn. split; auto. split; auto. congruence.
    - injection E as <-. cbn [c_coeffs c_basis]. split; auto. split; auto. intros _ Lc. split; [|cbn [c_basis]; rewrite Es; apply Hl].
      split; [eapply built_new; eauto|]. split; [cbn; rewrite Es; auto|]. split; [cbn; apply (Hl s); left; auto|]. cbn [c_basis]. rewrite Es. apply Hl.
  Qed.

  Lemma best_step ops norms best bestn o e : best_of init ops norms best bestn -> length ops = length norms -> (forall d, In d (norms ++ [e]) -> (0 <= d)%R) ->
    best_of init (ops ++ [o]) (norms ++ [e]) (if improves e bestn then o else best) (if improves e bestn then Some e else bestn).
  Proof.
    intros Hb Hl Hpos. assert (E0 : (0 <= e)%R) by (apply Hpos, in_or_app; right; left; auto).
    assert (Cs : forall j d, nth_error (norms ++ [e]) j = Some d -> nth_error norms j = Some d \/ j = length norms /\ d = e).
    { intros j d Hj. destruct (Nat.lt_ge_cases j (length norms)) as [L|L]; [rewrite nth_error_app1 in Hj by auto; auto|].
      rewrite nth_error_app2 in Hj by auto. destruct (j - length norms) as [|k] eqn:Ek; [|destruct k; discriminate]. injection Hj as <-. right. split; auto. lia. }
    destruct bestn as [b|]; cbn [improves].
    - destruct Hb as (i & N1 & N2 & Mn & Fi). rewrite Rabs_right by lra.
      assert (Li : i < length norms) by (apply nth_error_Some; congruence).
      destruct (lt_dec e b) eqn:El.
      + apply lt_dec_true in El. exists (length norms). rewrite <- Hl at 1. rewrite !nth_error_app2, !Nat.sub_diag by lia. split; auto. split; auto.
        assert (K : forall j d, nth_error norms j = Some d -> (e < d)%R) by (intros j d Hj; apply Mn in Hj; lra).
        split; intros j d; [|intros Lj]; intros Hj; apply Cs in Hj; destruct Hj as [Hj|[-> ->]]; try lra; try lia; apply K in Hj; lra.
      + assert (Eb : (b <= e)%R) by (destruct (Rlt_le_dec e b) as [F|F]; auto; apply lt_dec_true in F; congruence).
        exists i. rewrite !nth_error_app1 by lia. split; auto. split; auto.
        split; intros j d; [|intros Lj]; intros Hj; apply Cs in Hj; destruct Hj as [Hj|[-> ->]]; eauto; try lia.
    - destruct Hb as [-> _]. destruct norms; [|discriminate]. exists 0. split; auto. split; auto.
      split; intros j d; [|intros Lj]; intros Hj; apply Cs in Hj; destruct Hj as [Hj|[-> ->]]; try (destruct j; discriminate); try lra. cbn in Lj. lia.
  Qed.

  Lemma rec_pos o e : rec_ok o e -> (0 <= e)%R.
  Proof. intros (_ & _ & _ & D & w & _ & _ & <- & _). rewrite <- sqsum_norm2c. apply sqsum_nonneg. Qed.

  Lemma step_ok step st st' : state_ok st -> greedy_step Or p fuel H (H :: rest) step st = Ok st' -> state_ok st' /\
    exists o e, g_ops st' = g_ops st ++ [o] /\ g_norms st' = g_norms st ++ [e] /\ (exact_run -> least o e).
  Proof.
    intros (Hb & Ho & Hc & HF & HB) E. unfold greedy_step in E.
    destruct (of_option IndexError (nth_error (gp_nH p) step)) as [nH|]; [|discriminate]. cbn [rbind] in E.
    destruct (grow_commutators Or H (H :: rest) nH (g_basis st) (g_op st) (g_cache st)) as [[b1 x1]|] eqn:E1; [|discriminate]. cbn [rbind] in E.
    destruct (grow_commutators_ok ty H rest Hty HH Hrest _ _ _ _ _ _ _ Hb Hc E1) as [Hb1 Hc1].
    destruct (grow_anticommutators Or (gp_nO p) (g_op st) b1) as [b2|] eqn:E2; [|discriminate]. cbn [rbind] in E.
    pose proof (grow_anticommutators_ok ty Hty _ _ _ _ _ Ho Hb1 E2) as Hb2. rewrite Hpt in E. cbn [rbind] in E.
    destruct (find_vectors Or p (H :: rest) b2 x1) as [[qs x2]|] eqn:E3; [|discriminate]. cbn [rbind] in E.
    destruct (find_vectors_ok ty H rest Hty HH Hrest Or p Heig Hpt _ _ _ _ Hc1 Hb2 E3) as (Hc2 & HV & HM).
    destruct (nth_error qs 0) as [[e v]|] eqn:E4; [|discriminate]. cbn [of_option rbind] in E.
    destruct qs as [|q qs]; [discriminate|]. injection E4 as ->. destruct (HV (e, v) (or_introl eq_refl)) as (V1 & V2 & V3 & V4). cbn [fst snd] in *.
    destruct (cop_new v (b_strings b2) None) as [o|] eqn:E5; [|discriminate]. cbn [rbind] in E.
    pose proof (proj2 (proj1 (std_basis_ok ty b2) Hb2)) as Hs2.
    destruct (cop_new_std _ _ _ _ Hs2 E5) as (O1 & O2 & O3).
    destruct (of_option IndexError (nth_error (gp_sizes p) step)) as [size|]; [|discriminate]. cbn [rbind] in E.
    match type of E with context [gtruncate Or b2 v ?t size] => destruct (gtruncate Or b2 v t size) as [b4|] eqn:E6; [|discriminate] end. cbn [rbind] in E.
    match type of E with context [rbind ?a _] => destruct a as [cs|]; [|discriminate] end. cbn [rbind] in E.
    destruct (cop_new cs (b_strings b4) None) as [o'|] eqn:E7; [|discriminate]. cbn [rbind] in E. injection E as <-.
    assert (Hb4 : std_basis ty b4).
    { unfold gtruncate in E6. destruct (rmap _ _); [|discriminate]. cbn [rbind] in E6. match type of E6 with context [take ?a ?i] => destruct (take a i) as [ls|] eqn:Et; [|discriminate] end.
      cbn [rbind] in E6. apply (std_new ty ls); auto. intros s Hs. apply Hs2. eapply take_in; eauto. }
    pose proof (proj2 (proj1 (std_basis_ok ty b4) Hb4)) as Hs4. destruct (cop_new_std _ _ _ _ Hs4 E7) as (_ & P2 & _).
    assert (RO : rec_ok o e).
    { assert (NE : b_strings b2 <> []). { intros F. unfold basis_len in V1. rewrite F in V1. destruct v; [|discriminate]. cbn in V3. lra. }
      split; [apply O3; auto|]. rewrite O1. split; auto. }
    split.
    - split; auto. split; [cbn [g_op]; rewrite P2; auto|]. split; auto. split.
      + cbn [g_ops g_norms]. apply Forall2_app; auto.
      + cbn [g_ops g_norms g_best g_bestn]. apply best_step; auto; [clear - HF; induction HF; cbn; auto|].
        intros d Hd. assert (HF' : Forall2 rec_ok (g_ops st ++ [o]) (g_norms st ++ [e])) by (apply Forall2_app; auto).
        clear - HF' Hd. induction HF' as [|a b l m R F IH]; [destruct Hd|]. destruct Hd as [<-|Hd]; auto. eapply rec_pos; eauto.
    - exists o, e. cbn [g_ops g_norms]. split; auto. split; auto. intros (R1 & R2 & R3 & R4) q d Hq Eb Rq Nq.
      destruct (HM R1 R2 R3 R4 (e, v) qs eq_refl q) as (d' & Nd & Ld); auto; [|rewrite Eb; auto|].
      + destruct Hq as [(_ & Lq & _) _]. rewrite Lq, Eb, O2. reflexivity.
      + cbn [fst] in Ld. rewrite (commutator_norm_unique ty Hty H q d d'); auto.
  Qed.

  Lemma loop_ok : forall n step st st', state_ok st -> greedy_loop Or p fuel H (H :: rest) n step st = Ok st' -> state_ok st' /\
    exists ops norms, g_ops st' = g_ops st ++ ops /\ g_norms st' = g_norms st ++ norms /\ length ops <= n /\ (n <> 0 -> g_end st = false -> ops <> []) /\
      (exact_run -> Forall2 least ops norms).
  Proof.
    induction n as [|n IH]; intros step st st' Hst E; cbn [greedy_loop] in E.
    - injection E as <-. split; auto. exists [], []. rewrite !app_nil_r. do 3 (split; [auto|]). split; [intros F; congruence|constructor].
    - destruct (g_end st) eqn:Ee.
      + injection E as <-. split; auto. exists [], []. rewrite !app_nil_r. do 2 (split; [auto|]). split; [cbn; lia|]. split; [intros _ F; congruence|constructor].
      + destruct (greedy_step Or p fuel H (H :: rest) step st) as [st1|] eqn:Es; [|discriminate]. cbn [rbind] in E.
        destruct (step_ok _ _ _ Hst Es) as (Hst1 & o & e & G1 & G2 & G3). destruct (IH _ _ _ Hst1 E) as (Hst' & ops & norms & K1 & K2 & K3 & _ & K5).
        split; auto. exists (o :: ops), (e :: norms). rewrite K1, K2, G1, G2, <- !app_assoc. do 2 (split; [auto|]). split; [cbn; lia|]. split; [intros _ _ F; discriminate|auto].
  Qed.
End Loop.
