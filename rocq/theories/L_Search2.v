(** Proofs about the search of selected_ci_greedy: the loop. *)
From Coq Require Import String List ZArith Bool Arith Lia Permutation Sorted Reals QArith Qreals Qcanon Lra.
From Coquelicot Require Import Complex.
From Verif Require Import GC Exn M_OpString M_Tools M_Algebra M_Basis M_OpAlg M_Transform M_LinAlg M_Explore M_Core M_Greedy
  S_Alg S_Den S_Basis S_Built S_OpAlg S_Explore S_RScal S_CScal S_LinAlg S_Core S_Greedy S_Search
  L_Alg L_StrAlg L_StrOp L_Indep L_PropStr L_Basis L_Operator L_Heap L_PropBasis L_OpAlg L_Struct L_PropOpAlg L_Explore L_Explore2 L_Explore3 L_Explore4
  L_CScal L_LinAlg L_Inter L_Herm L_Core L_Commuting L_Invariant L_Greedy1 L_Greedy2 L_Greedy3 L_Greedy4 L_Search.
Import ListNotations.
Local Open Scope nat_scope.

Lemma filter_map_fst {T} (g : nat -> option T) (f : T -> bool) inds cs : Forall2 (fun i p => fst p = i /\ g i = Some (snd p)) inds cs ->
  map fst (filter (fun p => f (snd p)) cs) = filter (fun i => match g i with Some c => f c | None => false end) inds.
Proof.
  induction 1 as [|i [j c] inds cs [E1 E2] F IH]; auto. cbn [fst snd] in *. subst j. cbn [filter fst snd]. rewrite E2. destruct (f c); cbn [map fst]; rewrite IH; auto.
Qed.
Lemma rmap_forall2 {T U} (f : T -> res U) l : forall m, rmap f l = Ok m -> Forall2 (fun x y => f x = Ok y) l m.
Proof.
  induction l as [|x l IH]; intros m E; cbn [rmap] in E; [injection E as <-; constructor|].
  destruct (f x) as [y|] eqn:Ef; [|discriminate]. cbn [rbind] in E. destruct (rmap f l) as [ys|]; [|discriminate]. cbn [rbind] in E. injection E as <-. constructor; auto.
Qed.

Section Search2.
  Variables (ty : optype) (H : Operator).
  Hypotheses (Hty : ty <> Fermion) (HH : std_op ty H).
  Notation cok := (cache_ok ty (b_strings (o_basis H))).
  Variables (Or : groracles) (p : gparams) (fuel : nat) (init : COp).
  Hypotheses (Heig : real_solver (gr_eig Or)) (Hpt : gp_trans p = None) (Hsort : sorts_reals (gr_sort Or)).

  Lemma gtruncate_spec b v thr size b' : std_basis ty b -> length v = basis_len b -> gtruncate Or b v thr size = Ok b' ->
    std_basis ty b' /\ exists kept, picks size (fun t => (thr < Cmod (fst t))%R) (combine v (b_strings b)) kept /\ b_strings b' = map snd kept.
  Proof.
    intros Hb Lv E. unfold gtruncate in E. destruct (rmap _ _) as [cs|] eqn:Ec; [|discriminate]. cbn [rbind] in E.
    assert (Fc : Forall2 (fun i q => fst q = i /\ nth_error v i = Some (snd q)) (largest_first Or v) cs).
    { pose proof (rmap_forall2 _ _ _ Ec) as F. clear - F. induction F as [|i q l m E F IH]; constructor; auto.
      destruct (nth_error v i) as [c|]; [|discriminate]. cbn in E. injection E as <-. auto. }
    rewrite (filter_map_fst _ (fun c => lt_dec thr (Cmod c)) _ _ Fc) in E. set (cb := fun i => match nth_error v i with Some c => lt_dec thr (Cmod c) | None => false end) in *.
    destruct (take (b_strings b) _) as [l|] eqn:Et; [|discriminate]. cbn [rbind] in E.
    split; [apply (std_new ty l b' E); intros s Hs; apply (proj2 (proj1 (std_basis_ok ty b) Hb)); eapply take_in; eauto|].
    destruct (basis_new_ok _ _ E) as [Es _]. rewrite Es.
    pose proof (take_nth _ _ _ Et) as Ft.
    assert (G : exists ds, length ds = length l /\ Forall2 (fun i t => nth_error (combine v (b_strings b)) i = Some t) (firstn size (filter cb (largest_first Or v))) (combine ds l)).
    { clear - Ft Lv. induction Ft as [|i s l new E F IH]; [exists []; split; constructor|]. destruct IH as (ds & I1 & I2).
      destruct (nth_error v i) as [c|] eqn:Ec.
      - exists (c :: ds). split; [cbn; auto|]. constructor; auto. apply nth_combine; auto.
      - exfalso. apply nth_error_None in Ec. assert (i < length (b_strings b)) by (apply nth_error_Some; congruence). unfold vec, basis_len in *. lia. }
    destruct G as (ds & G1 & G2). exists (combine ds l). rewrite map_snd_combine by auto. split; auto.
    apply (picks_firstn size _ _ (largest_first Or v) cb (firstn size (filter cb (largest_first Or v)))); auto; [apply largest_first_ok; auto|].
    intros i [c s] Ei. apply combine_nth_error in Ei. destruct Ei as [Ei _]. unfold cb. rewrite Ei. cbn [fst]. apply lt_dec_true.
  Qed.
  Lemma own_coefficients b (v : vec) : std_basis ty b -> forall cs, rmap (fun s => let! i := basis_index b s in of_option IndexError (nth_error v i)) (b_strings b) = Ok cs ->
    cs = firstn (basis_len b) v /\ length cs = basis_len b.
  Proof.
    intros Hb cs E. assert (Lc : length cs = basis_len b) by (rewrite (rmap_length _ _ _ E); reflexivity). split; auto.
    apply rmap_forall2 in E.
    assert (N : forall i, i < basis_len b -> nth_error cs i = nth_error v i).
    { intros i Hi. destruct (nth_error (b_strings b) i) as [s|] eqn:Es; [|apply nth_error_None in Es; unfold basis_len in Hi; lia].
      assert (Q : nth_error cs i <> None) by (apply nth_error_Some; lia). destruct (nth_error cs i) as [c|] eqn:Eci; [|congruence].
      assert (G : (let! k := basis_index b s in of_option IndexError (nth_error v k)) = Ok c).
      { clear - E Es Eci. revert i Es Eci. induction E as [|x y l m E F IH]; intros [|i] H1 H2; cbn in *; try discriminate; [congruence | eauto]. }
      assert (Bi : basis_index b s = Ok i) by (apply std_basis_ok in Hb; apply (basis_ok_index b s i (proj1 Hb)); exists s; split; auto; apply same_key_refl). rewrite Bi in G. cbn [rbind] in G. destruct (nth_error v i); [|discriminate]. cbn in G. congruence. }
    clear E Hb. revert N Lc. generalize (basis_len b). intros n N Lc. apply nth_ext with (d := RtoC 0) (d' := RtoC 0).
    - rewrite firstn_length. destruct (Nat.le_gt_cases n (length v)) as [Q|Q]; [lia|].
      exfalso. assert (Z : nth_error cs (length v) = nth_error v (length v)) by (apply N; unfold vec in *; lia). assert (Z2 : nth_error v (length v) = None) by (apply nth_error_None; lia).
      rewrite Z2 in Z. apply nth_error_None in Z. unfold vec in *. lia.
    - intros i Hi. rewrite Lc in Hi. specialize (N i Hi).
      assert (nth_error (firstn n v) i = nth_error cs i). { rewrite N. clear - Hi. revert n Hi. unfold vec in v. revert i. induction v as [|x l IH]; intros [|i] [|n] Hi; cbn; auto; try lia. apply IH. lia. }
      rewrite (nth_error_nth' cs (RtoC 0)) in H0 by lia. symmetry. apply nth_error_nth. auto.
  Qed.

  Definition aligned (st : gstate) : Prop := b_strings (c_basis (g_op st)) = b_strings (g_basis st) /\ length (c_coeffs (g_op st)) = basis_len (g_basis st).

  Lemma best_least e b : (0 <= e)%R -> (if improves e b then Some e else b) = least_so_far b e.
  Proof.
    intros E0. destruct b as [b|]; auto. cbn. rewrite Rabs_right by lra. destruct (lt_dec e b) eqn:El.
    - apply lt_dec_true in El. rewrite Rmin_left by lra. auto.
    - assert (b <= e)%R by (destruct (Rlt_le_dec e b) as [F|F]; auto; apply lt_dec_true in F; congruence). rewrite Rmin_right; auto.
  Qed.
  Lemma worse_iff e b : worse e b = true <-> gets_worse b e.
  Proof. destruct b as [b|]; cbn; [apply lt_dec_true | split; [discriminate | tauto]]. Qed.
  Lemma slow_iff e b m : slow e b m = true <-> small_change b e m.
  Proof.
    destruct b as [b|]; cbn; [|split; [discriminate | tauto]]. destruct (Req_EM_T b 0) as [->|N]; [split; [discriminate | tauto]|].
    rewrite lt_dec_true. tauto.
  Qed.

  Lemma step_search step st st' : state_ok ty H init st -> aligned st -> greedy_step Or p fuel H [H] step st = Ok st' ->
    state_ok ty H init st' /\ aligned st' /\ exists o e nH size kept thr',
      g_ops st' = g_ops st ++ [o] /\ g_norms st' = g_norms st ++ [e] /\
      nth_error (gp_nH p) step = Some nH /\ grown ty H nH (gp_nO p) (c_terms (g_op st)) (b_strings (c_basis o)) /\
      nth_error (gp_sizes p) step = Some size /\ (gets_worse (g_bestn st) e -> thr' = (g_thr st / 2)%R) /\ (~ gets_worse (g_bestn st) e -> thr' = g_thr st) /\
      picks size (fun t => (thr' < Cmod (fst t))%R) (c_terms o) kept /\ g_thr st' = thr' /\
      c_terms (g_op st') = combine (firstn (length kept) (c_coeffs o)) (map snd kept) /\ g_bestn st' = least_so_far (g_bestn st) e /\
      (g_end st' = true <-> stops (gp_target p) (gp_minrel p) step (g_bestn st) e).
  Proof.
    intros Hst [Al1 Al2] E.
    destruct (step_ok ty H [] Hty HH (fun o F => match F with end) Or p fuel init Heig Hpt _ _ _ Hst E) as (Hst' & _). split; auto.
    destruct Hst as (Hb & Ho & Hc & HF & HB). unfold greedy_step in E.
    destruct (nth_error (gp_nH p) step) as [nH|]; [|discriminate]. cbn [of_option rbind] in E.
    destruct (grow_commutators Or H [H] nH (g_basis st) (g_op st) (g_cache st)) as [[b1 x1]|] eqn:E1; [|discriminate]. cbn [rbind] in E.
    destruct (grow_commutators_ok ty H [] Hty HH (fun o F => match F with end) _ _ _ _ _ _ _ Hb Hc E1) as [Hb1 Hc1].
    destruct (grow_commutators_spec ty H Hty HH _ _ _ _ _ _ _ Hsort Hb Hc Al1 Al2 E1) as (t1 & a & t2 & new & G1 & G2 & G3 & G4 & G5).
    destruct (grow_anticommutators Or (gp_nO p) (g_op st) b1) as [b2|] eqn:E2; [|discriminate]. cbn [rbind] in E.
    pose proof (grow_anticommutators_ok ty Hty _ _ _ _ _ Ho Hb1 E2) as Hb2. rewrite Hpt in E. cbn [rbind] in E.
    assert (ND : NoDup (b_strings (c_basis (g_op st)))) by (rewrite Al1; apply (std_nodup ty); auto).
    assert (LB : length (c_coeffs (g_op st)) = basis_len (c_basis (g_op st))) by (unfold basis_len in *; rewrite Al1; auto).
    destruct (grow_anticommutators_spec ty Hty _ _ _ _ _ Hsort Ho ND LB Hb1 E2) as (n1 & n2 & A1 & A2 & A3).
    destruct (find_vectors Or p [H] b2 x1) as [[qs x2]|] eqn:E3; [|discriminate]. cbn [rbind] in E.
    destruct (find_vectors_ok ty H [] Hty HH (fun o F => match F with end) Or p Heig Hpt _ _ _ _ Hc1 Hb2 E3) as (Hc2 & HV & _).
    destruct (nth_error qs 0) as [[e v]|] eqn:E4; [|discriminate]. cbn [of_option rbind] in E.
    destruct qs as [|q qs]; [discriminate|]. injection E4 as ->. destruct (HV (e, v) (or_introl eq_refl)) as (V1 & V2 & V3 & V4). cbn [fst snd] in *.
    destruct (cop_new v (b_strings b2) None) as [o|] eqn:E5; [|discriminate]. cbn [rbind] in E.
    pose proof (proj2 (proj1 (std_basis_ok ty b2) Hb2)) as Hs2.
    destruct (cop_new_std ty _ _ _ _ Hs2 E5) as (O1 & O2 & O3).
    destruct (nth_error (gp_sizes p) step) as [size|]; [|discriminate]. cbn [of_option rbind] in E.
    set (thr' := if worse e (g_bestn st) then (g_thr st / 2)%R else g_thr st) in *.
    destruct (gtruncate Or b2 v thr' size) as [b4|] eqn:E6; [|discriminate]. cbn [rbind] in E.
    destruct (gtruncate_spec _ _ _ _ _ Hb2 V1 E6) as (Hb4 & kept & K1 & K2).
    match type of E with context [rbind ?a _] => destruct a as [cs|] eqn:E8; [|discriminate] end. cbn [rbind] in E.
    destruct (own_coefficients b4 v Hb4 _ E8) as [Cs1 Cs2].
    destruct (cop_new cs (b_strings b4) None) as [o'|] eqn:E7; [|discriminate]. cbn [rbind] in E. injection E as <-.
    pose proof (proj2 (proj1 (std_basis_ok ty b4) Hb4)) as Hs4. destruct (cop_new_std ty _ _ _ _ Hs4 E7) as (P1 & P2 & _).
    assert (E0 : (0 <= e)%R).
    { destruct (V4 o O1 O2) as (D & w & _ & _ & <- & _). rewrite <- sqsum_norm2c. apply sqsum_nonneg. }
    cbn [g_op g_basis g_ops g_norms g_thr g_bestn g_end]. split; [split; cbn [g_op g_basis]; [auto | rewrite P1; auto]|].
    exists o, e, nH, size, kept, thr'. do 3 (split; [auto|]). split.
    { exists t1, a, t2, new, n1, n2. assert (Es : map snd (c_terms (g_op st)) = b_strings (g_basis st)) by (unfold c_terms; rewrite Al1; apply map_snd_combine; exact Al2).
      rewrite Es, <- G5 in *. do 4 (split; [auto|]). split; [auto|]. split; [auto|]. rewrite O2. auto. }
    split; [auto|]. split; [intros W; apply worse_iff in W; unfold thr'; rewrite W; auto|].
    split; [intros W; unfold thr'; destruct (worse e (g_bestn st)) eqn:Ew; auto; exfalso; apply W, worse_iff; auto|].
    split; [unfold c_terms; rewrite O1, O2; auto|]. split; auto.
    split.
    { unfold c_terms. rewrite P1, P2, Cs1, O1, K2. unfold basis_len. rewrite K2, map_length. auto. }
    rewrite (best_least e (g_bestn st) E0). split; auto.
    rewrite orb_true_iff. unfold stops. split.
    - intros [W|W]; [left|right].
      + destruct (gp_minrel p) as [m|]; [|discriminate]. apply andb_true_iff in W. destruct W as [W1 W2]. assert (W3 : 1 <= step) by (apply Nat.leb_le; exact W1). apply orb_true_iff in W2. rewrite worse_iff, slow_iff in W2. eauto.
      + destruct (gp_target p) as [t|]; [|discriminate]. destruct (least_so_far (g_bestn st) e) as [d|]; [|discriminate]. apply lt_dec_true in W. eauto.
    - intros [(m & -> & W1 & W2)|(t & d & -> & -> & W)]; [left|right; apply lt_dec_true; auto].
      apply andb_true_iff. rewrite orb_true_iff, worse_iff, slow_iff. split; auto. destruct step; [lia | auto].
  Qed.

  Lemma loop_search : forall n step st st', state_ok ty H init st -> aligned st -> g_end st = false -> greedy_loop Or p fuel H [H] n step st = Ok st' ->
    exists ops norms, g_ops st' = g_ops st ++ ops /\ g_norms st' = g_norms st ++ norms /\
      search ty H (gp_nH p) (gp_sizes p) (gp_nO p) (gp_target p) (gp_minrel p) (step + n) step (c_terms (g_op st)) (g_thr st) (g_bestn st) ops norms.
  Proof.
    induction n as [|n IH]; intros step st st' Hst Al Ee E; cbn [greedy_loop] in E.
    - injection E as <-. exists [], []. rewrite !app_nil_r. split; auto. split; auto. cbn. lia.
    - rewrite Ee in E. destruct (greedy_step Or p fuel H [H] step st) as [st1|] eqn:Es; [|discriminate]. cbn [rbind] in E.
      destruct (step_search _ _ _ Hst Al Es) as (Hst1 & Al1 & o & e & nH & size & kept & thr' & G1 & G2 & G3 & G4 & G5 & G6 & G7 & G8 & G9 & G10 & G11 & G12).
      destruct (g_end st1) eqn:Ee1.
      + assert (st' = st1). { destruct n; cbn [greedy_loop] in E; [congruence|]. rewrite Ee1 in E. congruence. } subst st'.
        exists [o], [e]. split; auto. split; auto. cbn [search]. split; [eauto|]. left. split; auto. split; auto. left. apply G12; auto.
      + destruct n as [|n].
        * cbn [greedy_loop] in E. injection E as <-. exists [o], [e]. split; auto. split; auto. cbn [search]. split; [eauto|]. left. split; auto. split; auto. right. lia.
        * destruct (IH (S step) st1 st' Hst1 Al1 Ee1 E) as (ops & norms & K1 & K2 & K3). exists (o :: ops), (e :: norms). rewrite K1, K2, G1, G2, <- !app_assoc. split; auto. split; auto.
          cbn [search]. split; [eauto|]. right. split; [intros F; apply G12 in F; congruence|]. split; [lia|].
          exists size, thr', kept. do 4 (split; [auto|]). rewrite <- G10, <- G11, <- G9. replace (step + S (S n)) with (S step + S n) by lia. exact K3.
  Qed.
End Search2.
